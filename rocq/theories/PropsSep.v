(** * Property C59: factors that treat their variables separately. *)
From Verif Require Import NumPy Lists VGroup FGraph BPState BP SpecVGroup SpecFGraph SpecFactor SpecAdd SpecWiring SpecState SpecBP SpecText SpecBeliefs SpecPerm SpecLocal SpecSep.
From Verif Require Import LemFGraph LemRun LemBeliefs LemPerm LemLocal LemSep ExBP PropsMsgs PropsRun PropsBeliefs PropsPerm PropsStable.
From Coq Require Import Reals Lra Lia QArith Permutation.
Local Close Scope Q_scope.
Local Close Scope R_scope.
Local Open Scope nat_scope.

(** ** C59 *)
(** A factor listing every combination of states, with potentials that are sums of a term per
    variable, sends each variable its own term with the maximum subtracted, whatever it
    receives and at every temperature. Without damping it does so from the first iteration on. *)
Theorem C59_undamped :
  forall vgs (g : fgraph R) T (c : bp_ctx R),
  groups_ok vgs -> reachable vgs g -> wf_groups (gr_groups g) -> bp_of g T c ->
  forall a, arrays_of c a ->
  let fs := graph_factors 0%R (gr_groups g) in
  let pots := graph_pots (gr_groups g) (ba_log_potentials a) in
  let ne := length (enum_factors (gr_groups g)) in
  let lens := map snd (sf_edges fs) in
  let ev := read_ev (gr_vars_to_starts g) (ba_evidence a) in
  let msgs b := read_msgs fs (ba_ftov_msgs b) in
  forall B P D K, (0 <= T)%R -> moderate fs pots ne ev B P D K -> supported lens -> above_floor lens (ba_ftov_msgs a) ->
  forall f th, f < length fs -> separable (factor_at fs f) (pots f) th -> narrow (factor_at fs f) th ->
  forall n u s, u < arity fs f -> s < snd (var_at fs f u) ->
  msgs (run_bp c a (S n) 0%R) f u s = centred (snd (var_at fs f u)) (th u) s.
Proof.
  exact (fun vgs g T c H1 H2 H3 H4 a H5 B P D K HT M S F f th =>
    C59_undamped_lemma vgs g T c H1 H2 H3 H4 a H5 0%R B P D K HT (conj (Rle_refl 0) Rle_0_1) M S F f th eq_refl).
Qed.
Print Assumptions C59_undamped.

(** With damping [d], a message started at a multiple [al] of that term (0 for a fresh start)
    approaches it by a factor [d] per iteration. *)
Theorem C59_message :
  forall vgs (g : fgraph R) T (c : bp_ctx R),
  groups_ok vgs -> reachable vgs g -> wf_groups (gr_groups g) -> bp_of g T c ->
  forall a, arrays_of c a ->
  let fs := graph_factors 0%R (gr_groups g) in
  let pots := graph_pots (gr_groups g) (ba_log_potentials a) in
  let ne := length (enum_factors (gr_groups g)) in
  let lens := map snd (sf_edges fs) in
  let ev := read_ev (gr_vars_to_starts g) (ba_evidence a) in
  let msgs b := read_msgs fs (ba_ftov_msgs b) in
  forall d B P D K, (0 <= T)%R -> (0 <= d <= 1)%R -> moderate fs pots ne ev B P D K -> supported lens -> above_floor lens (ba_ftov_msgs a) ->
  forall f th al, f < length fs -> separable (factor_at fs f) (pots f) th -> narrow (factor_at fs f) th -> (0 <= al <= 1)%R ->
  forall u, u < arity fs f ->
  (forall s, s < snd (var_at fs f u) -> msgs a f u s = (al * centred (snd (var_at fs f u)) (th u) s)%R) ->
  forall n s, s < snd (var_at fs f u) ->
  msgs (run_bp c a n d) f u s = ((1 - d ^ n * (1 - al)) * centred (snd (var_at fs f u)) (th u) s)%R.
Proof. exact C59_message_lemma. Qed.
Print Assumptions C59_message.

(** Such factors can be replaced by evidence. The second graph has the factors of the first
    and extra ones of this kind; the evidence in the first is that in the second plus the
    terms of the extra factors. Started with the same messages, and with their terms as
    messages of the extra factors, both runs have the same messages after every iteration, *)
Theorem C59_same :
  forall vgs (g g' : fgraph R) T (c c' : bp_ctx R),
  groups_ok vgs -> reachable vgs g -> wf_groups (gr_groups g) -> bp_of g T c ->
  reachable vgs g' -> wf_groups (gr_groups g') -> bp_of g' T c' ->
  forall a a', arrays_of c a -> arrays_of c' a' ->
  let fs := graph_factors 0%R (gr_groups g) in
  let fs' := graph_factors 0%R (gr_groups g') in
  let pots := graph_pots (gr_groups g) (ba_log_potentials a) in
  let pots' := graph_pots (gr_groups g') (ba_log_potentials a') in
  let ne := length (enum_factors (gr_groups g)) in
  let ne' := length (enum_factors (gr_groups g')) in
  let lens := map snd (sf_edges fs) in
  let lens' := map snd (sf_edges fs') in
  let ev := read_ev (gr_vars_to_starts g) (ba_evidence a) in
  let ev' := read_ev (gr_vars_to_starts g') (ba_evidence a') in
  let msgs b := read_msgs fs (ba_ftov_msgs b) in
  let msgs' b := read_msgs fs' (ba_ftov_msgs b) in
  forall d B P B' P' D K D' K', (0 <= T)%R -> (0 <= d <= 1)%R ->
  moderate fs pots ne ev B P D K -> moderate fs' pots' ne' ev' B' P' D' K' ->
  supported lens -> supported lens' -> above_floor lens (ba_ftov_msgs a) -> above_floor lens' (ba_ftov_msgs a') ->
  forall p th, extends fs fs' p ->
  (forall f k, f < length fs -> k < length (sf_configs (factor_at fs f)) -> pots' (p f) k = pots f k) ->
  (forall f, f < length fs' -> is_extra fs p f = true -> separable (factor_at fs' f) (pots' f) (th f) /\ narrow (factor_at fs' f) (th f)) ->
  (forall x s, In x (all_vars vgs) -> s < snd x -> ev x s = (ev' x s + extra_terms fs fs' p th x s)%R) ->
  (forall f u s, f < length fs -> u < arity fs f -> s < snd (var_at fs f u) -> msgs' a' (p f) u s = msgs a f u s) ->
  (forall f u s, f < length fs' -> is_extra fs p f = true -> u < arity fs' f -> s < snd (var_at fs' f u) ->
     msgs' a' f u s = centred (snd (var_at fs' f u)) (th f u) s) ->
  forall n f u s, f < length fs -> u < arity fs f -> s < snd (var_at fs f u) ->
  msgs' (run_bp c' a' n d) (p f) u s = msgs (run_bp c a n d) f u s.
Proof. exact C59_same_lemma. Qed.
Print Assumptions C59_same.

(** ... and the same beliefs and decoded states. *)
Theorem C59_evidence :
  forall vgs (g g' : fgraph R) T (c c' : bp_ctx R),
  groups_ok vgs -> reachable vgs g -> wf_groups (gr_groups g) -> bp_of g T c ->
  reachable vgs g' -> wf_groups (gr_groups g') -> bp_of g' T c' ->
  forall a a', arrays_of c a -> arrays_of c' a' ->
  let fs := graph_factors 0%R (gr_groups g) in
  let fs' := graph_factors 0%R (gr_groups g') in
  let pots := graph_pots (gr_groups g) (ba_log_potentials a) in
  let pots' := graph_pots (gr_groups g') (ba_log_potentials a') in
  let ne := length (enum_factors (gr_groups g)) in
  let ne' := length (enum_factors (gr_groups g')) in
  let lens := map snd (sf_edges fs) in
  let lens' := map snd (sf_edges fs') in
  let ev := read_ev (gr_vars_to_starts g) (ba_evidence a) in
  let ev' := read_ev (gr_vars_to_starts g') (ba_evidence a') in
  let msgs b := read_msgs fs (ba_ftov_msgs b) in
  let msgs' b := read_msgs fs' (ba_ftov_msgs b) in
  forall d B P B' P' D K D' K', (0 <= T)%R -> (0 <= d <= 1)%R ->
  moderate fs pots ne ev B P D K -> moderate fs' pots' ne' ev' B' P' D' K' ->
  supported lens -> supported lens' -> above_floor lens (ba_ftov_msgs a) -> above_floor lens' (ba_ftov_msgs a') ->
  forall p th, extends fs fs' p ->
  (forall f k, f < length fs -> k < length (sf_configs (factor_at fs f)) -> pots' (p f) k = pots f k) ->
  (forall f, f < length fs' -> is_extra fs p f = true -> separable (factor_at fs' f) (pots' f) (th f) /\ narrow (factor_at fs' f) (th f)) ->
  (forall x s, In x (all_vars vgs) -> s < snd x -> ev x s = (ev' x s + extra_terms fs fs' p th x s)%R) ->
  (forall f u s, f < length fs -> u < arity fs f -> s < snd (var_at fs f u) -> msgs' a' (p f) u s = msgs a f u s) ->
  (forall f u s, f < length fs' -> is_extra fs p f = true -> u < arity fs' f -> s < snd (var_at fs' f u) ->
     msgs' a' f u s = centred (snd (var_at fs' f u)) (th f u) s) ->
  (forall gr k, In gr vgs -> In k (vg_num_states gr) -> 0 < k) -> (forall gr, In gr vgs -> one_state gr = false) ->
  forall n, exists b q b' q', get_beliefs c (run_bp c a n d) = Ok b /\ decode_map_states b = Ok q /\
    get_beliefs c' (run_bp c' a' n d) = Ok b' /\ decode_map_states b' = Ok q' /\
  forall gr, In gr vgs -> exists e y e' y',
    dget vg_eqb gr b = Some e /\ dget vg_eqb gr q = Some y /\ dget vg_eqb gr b' = Some e' /\ dget vg_eqb gr q' = Some y' /\
  forall i x, nth_error (vg_variables gr) i = Some x -> row gr e' i = row gr e i /\ cell gr y' i = cell gr y i.
Proof. exact C59_evidence_lemma. Qed.
Print Assumptions C59_evidence.

(** A program that adds factors listing every combination with equal potentials gets the same
    beliefs and decoded states, after any number of iterations. *)
Theorem C59_uninformative :
  forall vgs (g g' : fgraph R) T c c' eu a a' extra,
  groups_ok vgs -> reachable vgs g -> reachable vgs g' -> wf_groups (gr_groups g) -> wf_groups (gr_groups g') ->
  let fs := graph_factors 0%R (gr_groups g) in
  let fs' := graph_factors 0%R (gr_groups g') in
  Permutation fs' (fs ++ extra) -> Forall uninformative extra ->
  fresh_bp g T c -> fresh_bp g' T c' -> bp_init c None None eu = Ok a -> bp_init c' None None eu = Ok a' ->
  forall B P D K d n,
  moderate fs' (fun f k => nth k (sf_pots (factor_at fs' f)) 0%R) (length fs') (read_ev (gr_vars_to_starts g) (ba_evidence a)) B P D K ->
  (0 <= T)%R -> (0 <= d <= 1)%R -> supported (map snd (sf_edges fs')) ->
  (forall gr k, In gr vgs -> In k (vg_num_states gr) -> 0 < k) -> (forall gr, In gr vgs -> one_state gr = false) ->
  exists b q b' q', get_beliefs c (run_bp c a n d) = Ok b /\ decode_map_states b = Ok q /\
    get_beliefs c' (run_bp c' a' n d) = Ok b' /\ decode_map_states b' = Ok q' /\
  forall gr, In gr vgs -> exists e y e' y',
    dget vg_eqb gr b = Some e /\ dget vg_eqb gr q = Some y /\ dget vg_eqb gr b' = Some e' /\ dget vg_eqb gr q' = Some y' /\
  forall i x, nth_error (vg_variables gr) i = Some x -> row gr e' i = row gr e i /\ cell gr y' i = cell gr y i.
Proof. exact C59_uninformative_lemma. Qed.
Print Assumptions C59_uninformative.

(** ** Examples *)
(** The example graph with one more factor, on [b0] and [b3], listing all four combinations. *)
Section More.
  Context {A : Type} (p : Z -> A) (l : list Z).
  Definition ex6_pair : fgroup A :=
    {| fg_id := 61; fg_kind := KEnum; fg_type := TEnum; fg_vars := [[b0; b3]];
       fg_configs := mkArr [4; 2] [0; 0; 0; 1; 1; 0; 1; 1]%Z; fg_log_potentials := map p l |}.
  Definition ex6_graph : fgraph A := fst (add_factors (AList (map AGroup [ex_enum p; ex_or; ex_and; ex6_pair])) (FactorGraph (GsList ex_vgs))).
  Lemma ex6_reach : reachable ex_vgs ex6_graph.
  Proof. apply reach_add, reach_new. reflexivity. Qed.
  Lemma ex6_groups : gr_groups ex6_graph = PT [ex_enum p; ex6_pair] [ex_or] [ex_and].
  Proof. reflexivity. Qed.
  Lemma ex6_wf : length l = 4 -> wf_groups (gr_groups ex6_graph).
  Proof.
    intros Hl t g Hg. rewrite ex6_groups in Hg. assert (W : In g (pt_get t (gr_groups (ex_graph p))) \/ t = TEnum /\ g = ex6_pair).
    { destruct t; cbn in Hg.
      - destruct Hg as [<-|[<-|[]]]; [left; now left|now right].
      - left. exact Hg.
      - left. exact Hg. }
    destruct W as [W|[-> ->]]; [now apply (ex_wf p)|].
    split; [reflexivity|]. split; [|discriminate]. exists 4. split; [cbn; now rewrite map_length, Hl|].
    intros vs [<-|[]]. split; [reflexivity|]. intros r u x Hr Hu. destruct u as [|[|u]]; [| |destruct u; discriminate]; injection Hu as <-;
      (destruct r as [|[|[|[|r]]]]; [| | | |lia]); vm_compute; split; congruence.
  Qed.
End More.
(** Terms 2 and -1 for [b0], 0 and 5 for [b3]. *)
Definition ex6_l : list Z := [2; 7; -1; 4]%Z.
Definition ex6_th (f u s : nat) : R := match u, s with 0, 0 => 2%R | 0, _ => (-1)%R | _, 0 => 0%R | _, _ => 5%R end.
Definition ex6_st : fg_state R :=
  ltac:(let r := eval vm_compute in (compile_fg_state (fun _ => 0%Z) (ex6_graph IZR ex6_l)) in
        match r with Ok ?s => exact s end).
Notation ex6_g := (ex6_graph IZR ex6_l).
Definition ex6_bs : bp_state R :=
  {| bs_log_potentials := {| c_state := (9, ex6_st); c_value := st_log_potentials ex6_st |};
     bs_ftov_msgs := {| c_state := (9, ex6_st); c_value := repeat 0%R 26 |};
     bs_evidence := {| c_state := (9, ex6_st); c_value := repeat 0%R 11 |} |}.
Definition ex6_msgs : list Z := [0; -1; 0; -2; -3; -5; 0; 0; -1; 0; 0; -3; -5; 0; 0; -4; -1; 0; 0; -2; 0; 0; -3; 0; 0; -1]%Z.
Definition ex6_a : bp_arrays R :=
  {| ba_log_potentials := map IZR ([1; -2; 3; 0; 4; -1; 2; 2] ++ ex6_l)%Z; ba_ftov_msgs := map IZR ex6_msgs; ba_evidence := map IZR ex_ev_z |}.
Lemma ex6_bp T : exists c', bp_of ex6_g T c' /\ arrays_of c' ex6_a.
Proof.
  destruct (BP ex6_bs T) as [c'|e] eqn:E; [|discriminate]. exists c'. split; [exists (fun _ => 0%Z), ex6_bs; split; [vm_compute; reflexivity|exact E]|].
  injection E as <-. repeat split.
Qed.
Definition ex6_fs : list (sfactor R) :=
  [nth 0 ex_rfs (SF [] [] []); nth 1 ex_rfs (SF [] [] []); SF [b0; b3] [[0; 0]; [0; 1]; [1; 0]; [1; 1]]%Z (map IZR ex6_l); nth 2 ex_rfs (SF [] [] []); nth 3 ex_rfs (SF [] [] [])].
Lemma ex6_factors : graph_factors 0%R (gr_groups ex6_g) = ex6_fs.
Proof. reflexivity. Qed.
Notation ex6_pots := (graph_pots (gr_groups ex6_g) (ba_log_potentials ex6_a)).
Lemma pair_complete pots : complete (SF [b0; b3] [[0; 0]; [0; 1]; [1; 0]; [1; 1]]%Z pots : sfactor R).
Proof.
  split; [repeat constructor; cbn; intuition discriminate|]. intros cfg Hl Hc. destruct cfg as [|x [|y [|]]]; try discriminate.
  pose proof (Hc 0 ltac:(cbn; lia)) as H0. pose proof (Hc 1 ltac:(cbn; lia)) as H1. cbn in H0, H1.
  assert (Hx : x = 0%Z \/ x = 1%Z) by lia. assert (Hy : y = 0%Z \/ y = 1%Z) by lia. destruct Hx as [->| ->], Hy as [->| ->]; cbn; tauto.
Qed.
Lemma ex6_separable : separable (factor_at ex6_fs 2) (ex6_pots 2) (ex6_th 2) /\ narrow (factor_at ex6_fs 2) (ex6_th 2).
Proof.
  split.
  - split; [exact (pair_complete _)|]. exists 0%R. intros k Hk.
    assert (E : ex6_pots 2 k = nth k (map IZR ex6_l) 0%R) by (destruct k as [|[|[|[|k]]]]; [reflexivity..|cbn in Hk; lia]). rewrite E.
    destruct k as [|[|[|[|k]]]]; [| | | |cbn in Hk; lia]; cbn; change (Pos.to_nat 1) with 1; cbn; lra.
  - intros u s Hu Hs. destruct u as [|[|u]]; [| |cbn in Hu; lia]; (destruct s as [|[|s]]; [| |cbn in Hs; lia]); unfold centred; cbn [seq snd nth sf_vars factor_at ex6_fs map rmaxs rmax fold_right ex6_th b0 b3];
      unfold Rmax; repeat destruct (Rle_dec _ _); lra.
Qed.
Lemma ex6_moderate : moderate ex6_fs ex6_pots (length (enum_factors (gr_groups ex6_g))) (read_ev (gr_vars_to_starts ex6_g) (ba_evidence ex6_a)) 10 10 12 2.
Proof.
  split; [|split; [|split; [|split; [|split; [|split; cbn [INR]; lra]]]]].
  - intros x s _ _. unfold read_ev. generalize (start_of (gr_vars_to_starts ex6_g) x + s). intros i. do 11 (destruct i as [|i]; [cbn; lra|]); destruct i; cbn; lra.
  - intros f k Hf Hk. assert (f < 3) by exact Hf. unfold graph_pots. destruct (f <? _); [|lra]. unfold read_pots.
    match goal with |- (_ <= nth ?i _ _)%R => generalize i end. intros i. do 12 (destruct i as [|i]; [cbn; lra|]); destruct i; cbn; lra.
  - intros x. unfold slots_of. eapply Nat.le_trans; [apply filter_length_le|]. vm_compute. lia.
  - intros f Hf. assert (Hf2 : f < 3) by exact Hf. destruct f as [|[|[|]]]; [| | |lia]; vm_compute; lia.
  - intros f u s Hf Hu Hs. assert (Hf2 : f < 3) by exact Hf. destruct f as [|[|[|]]]; [| | |lia]; (destruct u as [|[|[|u]]]; try (exfalso; vm_compute in Hu; lia));
      (destruct s as [|[|[|s]]]; try (exfalso; vm_compute in Hs; lia)); vm_compute; discriminate.
Qed.
Lemma ex6_supported : supported (map snd (sf_edges ex6_fs)).
Proof. split; [vm_compute; discriminate|]. intros n Hn. vm_compute in Hn. repeat (destruct Hn as [<-|Hn]; [lia|]). destruct Hn. Qed.
Lemma ex6_above : above_floor (map snd (sf_edges ex6_fs)) (ba_ftov_msgs ex6_a).
Proof.
  intros e He. right. assert (e < 12) by exact He. unfold neg_inf.
  do 12 (destruct e as [|e]; [eapply Rle_trans; [|apply LemNum.rmaxs_ub; left; reflexivity]; cbn; lra|]). lia.
Qed.
(** From any messages with the right sizes, after one iteration: 0, -3 to [b0] and -5, 0 to
    [b3], at every temperature. *)
Lemma ex6_centred s : s < 2 -> centred 2 (ex6_th 2 0) s = nth s [0; -3]%R 0%R /\ centred 2 (ex6_th 2 1) s = nth s [-5; 0]%R 0%R.
Proof.
  intros Hs. destruct s as [|[|s]]; [| |lia]; unfold centred; cbn [seq map rmaxs rmax fold_right ex6_th nth];
    unfold Rmax; repeat destruct (Rle_dec _ _); split; lra.
Qed.
Example C59_undamped_nonvacuous : forall T n, (0 <= T)%R -> exists c', bp_of ex6_g T c' /\ arrays_of c' ex6_a /\
  forall s, s < 2 -> read_msgs ex6_fs (ba_ftov_msgs (run_bp c' ex6_a (S n) 0%R)) 2 0 s = nth s [0; -3]%R 0%R /\
                     read_msgs ex6_fs (ba_ftov_msgs (run_bp c' ex6_a (S n) 0%R)) 2 1 s = nth s [-5; 0]%R 0%R.
Proof.
  intros T n HT. destruct (ex6_bp T) as [c' [H4 H5]]. exists c'. split; [exact H4|]. split; [exact H5|]. intros s Hs.
  assert (Hf2 : 2 < length ex6_fs) by (cbn; lia). assert (Hu0 : 0 < arity ex6_fs 2) by (cbn; lia). assert (Hu1 : 1 < arity ex6_fs 2) by (cbn; lia).
  destruct (ex6_centred s Hs) as [<- <-].
  pose proof (C59_undamped ex_vgs ex6_g T c' ex_vgs_ok (ex6_reach IZR ex6_l) (ex6_wf IZR ex6_l eq_refl) H4 ex6_a H5 10%R 10%R 12 2 HT ex6_moderate ex6_supported ex6_above
    2 (ex6_th 2) Hf2 (proj1 ex6_separable) (proj2 ex6_separable) n) as C.
  split; [exact (C 0 s Hu0 Hs)|exact (C 1 s Hu1 Hs)].
Qed.
(** From messages 0 with damping [d]. *)
Definition ex6_zero : bp_arrays R :=
  {| ba_log_potentials := ba_log_potentials ex6_a; ba_ftov_msgs := repeat 0%R 26; ba_evidence := ba_evidence ex6_a |}.
Example C59_message_nonvacuous : forall T d n, (0 <= T)%R -> (0 <= d <= 1)%R -> exists c', bp_of ex6_g T c' /\ arrays_of c' ex6_zero /\
  forall s, s < 2 -> read_msgs ex6_fs (ba_ftov_msgs (run_bp c' ex6_zero n d)) 2 0 s = ((1 - d ^ n) * nth s [0; -3] 0)%R.
Proof.
  intros T d n HT Hd. destruct (ex6_bp T) as [c' [H4 [A1 [A2 A3]]]]. exists c'. split; [exact H4|].
  assert (H5 : arrays_of c' ex6_zero) by (split; [exact A1|]; split; [rewrite <- A2; reflexivity|exact A3]). split; [exact H5|]. intros s Hs.
  assert (Hf2 : 2 < length ex6_fs) by (cbn; lia). assert (Hu0 : 0 < arity ex6_fs 2) by (cbn; lia).
  destruct (ex6_centred s Hs) as [<- _].
  refine (eq_trans (C59_message ex_vgs ex6_g T c' ex_vgs_ok (ex6_reach IZR ex6_l) (ex6_wf IZR ex6_l eq_refl) H4 ex6_zero H5 d 10%R 10%R 12 2 HT Hd ex6_moderate ex6_supported
    (zeros_above _ 26) 2 (ex6_th 2) 0%R Hf2 (proj1 ex6_separable) (proj2 ex6_separable) ltac:(lra) 0 Hu0 _ n s Hs) _).
  - intros i _. rewrite Rmult_0_l. exact (read_zeros ex6_fs 26 2 0 i).
  - change (snd (var_at _ 2 0)) with 2. ring.
Qed.

(** Evidence in place of the factor: 0, -3 more for [b0] and -5, 0 more for [b3]. *)
Definition ex7_a : bp_arrays R := ex_arrays IZR (map IZR ex_msgs_z) (map IZR [3; -3; -1; 2; 0; 1; -9; 0; 2; -2; 1]%Z).
Definition ex7_p (f : nat) : nat := if f <? 2 then f else S f.
Lemma ex7_moderate : moderate ex_rfs (graph_pots (gr_groups ex_g) (ba_log_potentials ex7_a)) (length (enum_factors (gr_groups ex_g)))
  (read_ev (gr_vars_to_starts ex_g) (ba_evidence ex7_a)) 10 10 10 2.
Proof.
  destruct ex_moderate as [_ M]. split; [|exact M].
  intros x s _ _. unfold read_ev. generalize (start_of (gr_vars_to_starts ex_g) x + s). intros i. do 11 (destruct i as [|i]; [cbn; lra|]); destruct i; cbn; lra.
Qed.
Lemma ex7_extends : extends ex_rfs ex6_fs ex7_p.
Proof.
  split.
  - intros f Hf. assert (f < 4) by exact Hf. destruct f as [|[|[|[|f]]]]; [| | | |lia]; (split; [cbn; lia|reflexivity]).
  - intros f h Hf Hh. assert (f < 4) by exact Hf. assert (h < 4) by exact Hh. unfold ex7_p. destruct (Nat.ltb_spec f 2), (Nat.ltb_spec h 2); lia.
Qed.
Lemma ex7_extra f : f < length ex6_fs -> is_extra ex_rfs ex7_p f = true -> f = 2.
Proof. intros Hf. assert (f < 5) by exact Hf. destruct f as [|[|[|[|[|f]]]]]; [| | | | |lia]; vm_compute; congruence. Qed.
Lemma ex7_pots f k : f < length ex_rfs -> k < length (sf_configs (factor_at ex_rfs f)) ->
  ex6_pots (ex7_p f) k = graph_pots (gr_groups ex_g) (ba_log_potentials ex7_a) f k.
Proof. intros Hf Hk. assert (f < 4) by exact Hf. destruct f as [|[|[|[|f]]]]; [| | | |lia]; (do 4 (destruct k as [|k]; [reflexivity|])); cbn in Hk; lia. Qed.
Lemma ex7_evidence x s : In x (all_vars ex_vgs) -> s < snd x ->
  read_ev (gr_vars_to_starts ex_g) (ba_evidence ex7_a) x s
  = (read_ev (gr_vars_to_starts ex6_g) (ba_evidence ex6_a) x s + extra_terms ex_rfs ex6_fs ex7_p ex6_th x s)%R.
Proof.
  intros Hx Hs. change (all_vars ex_vgs) with [b0; b1; b2; b3; b4] in Hx. unfold extra_terms.
  assert (E : filter (fun fu => is_extra ex_rfs ex7_p (fst fu)) (slots_of ex6_fs x) = if var_eqb x b0 then [(2, 0)] else if var_eqb x b3 then [(2, 1)] else []).
  { cbn [In] in Hx. destruct Hx as [<-|[<-|[<-|[<-|[<-|[]]]]]]; vm_compute; reflexivity. }
  rewrite E. cbn [In] in Hx. destruct Hx as [<-|[<-|[<-|[<-|[<-|[]]]]]]; cbn [snd b0 b1 b2 b3 b4] in Hs.
  - change (var_eqb b0 b0) with true. cbn [map rsum fold_right fst snd]. change (snd b0) with 2. rewrite (proj1 (ex6_centred s Hs)). destruct s as [|[|s]]; [cbn; ring|cbn; ring|lia].
  - change (var_eqb b1 b0) with false. change (var_eqb b1 b3) with false. cbn [map rsum fold_right]. rewrite Rplus_0_r. destruct s as [|[|s]]; [reflexivity|reflexivity|lia].
  - change (var_eqb b2 b0) with false. change (var_eqb b2 b3) with false. cbn [map rsum fold_right]. rewrite Rplus_0_r. destruct s as [|[|s]]; [reflexivity|reflexivity|lia].
  - change (var_eqb b3 b0) with false. change (var_eqb b3 b3) with true. cbn [map rsum fold_right fst snd]. change (snd b3) with 2. rewrite (proj2 (ex6_centred s Hs)). destruct s as [|[|s]]; [cbn; ring|cbn; ring|lia].
  - change (var_eqb b4 b0) with false. change (var_eqb b4 b3) with false. cbn [map rsum fold_right]. rewrite Rplus_0_r. destruct s as [|[|[|s]]]; [reflexivity..|lia].
Qed.
Lemma ex7_msgs f u s : f < length ex_rfs -> u < arity ex_rfs f -> s < snd (var_at ex_rfs f u) ->
  read_msgs ex6_fs (ba_ftov_msgs ex6_a) (ex7_p f) u s = read_msgs ex_rfs (ba_ftov_msgs ex7_a) f u s.
Proof.
  intros Hf Hu Hs. assert (f < 4) by exact Hf. destruct f as [|[|[|[|f]]]]; [| | | |lia]; (destruct u as [|[|[|u]]]; try (exfalso; vm_compute in Hu; lia));
    (destruct s as [|[|[|s]]]; try (exfalso; vm_compute in Hs; lia)); reflexivity.
Qed.
Lemma ex7_settled f u s : f < length ex6_fs -> is_extra ex_rfs ex7_p f = true -> u < arity ex6_fs f -> s < snd (var_at ex6_fs f u) ->
  read_msgs ex6_fs (ba_ftov_msgs ex6_a) f u s = centred (snd (var_at ex6_fs f u)) (ex6_th f u) s.
Proof.
  intros Hf Hx Hu Hs. apply (ex7_extra f Hf) in Hx. subst f. assert (Hu2 : u < 2) by exact Hu. destruct u as [|[|u]]; [| |lia].
  - change (snd (var_at ex6_fs 2 0)) with 2 in *. rewrite (proj1 (ex6_centred s Hs)). destruct s as [|[|s]]; [reflexivity|reflexivity|lia].
  - change (snd (var_at ex6_fs 2 1)) with 2 in *. rewrite (proj2 (ex6_centred s Hs)). destruct s as [|[|s]]; [reflexivity|reflexivity|lia].
Qed.
Lemma ex7_sep f : f < length ex6_fs -> is_extra ex_rfs ex7_p f = true -> separable (factor_at ex6_fs f) (ex6_pots f) (ex6_th f) /\ narrow (factor_at ex6_fs f) (ex6_th f).
Proof. intros Hf Hx. apply (ex7_extra f Hf) in Hx. subst f. exact ex6_separable. Qed.
Example C59_same_nonvacuous : forall T d n, (0 <= T)%R -> (0 <= d <= 1)%R -> exists c', bp_of ex6_g T c' /\ arrays_of c' ex6_a /\
  forall f u s, f < 4 -> u < arity ex_rfs f -> s < snd (var_at ex_rfs f u) ->
  read_msgs ex6_fs (ba_ftov_msgs (run_bp c' ex6_a n d)) (ex7_p f) u s = read_msgs ex_rfs (ba_ftov_msgs (run_bp (ex_c T) ex7_a n d)) f u s.
Proof.
  intros T d n HT Hd. destruct (ex_given T) as [H1 [H2 [H3 [H4 _]]]]. assert (H5 : arrays_of (ex_c T) ex7_a) by (now apply ex_arrays_of). destruct (ex6_bp T) as [c' [H6 H7]].
  exists c'. split; [exact H6|]. split; [exact H7|].
  exact (C59_same ex_vgs ex_g ex6_g T (ex_c T) c' H1 H2 H3 H4 (ex6_reach IZR ex6_l) (ex6_wf IZR ex6_l eq_refl) H6 ex7_a ex6_a H5 H7 d 10%R 10%R 10%R 10%R 10 2 12 2 HT Hd
    ex7_moderate ex6_moderate ex_supported ex6_supported ex_above ex6_above ex7_p ex6_th ex7_extends ex7_pots ex7_sep ex7_evidence ex7_msgs ex7_settled n).
Qed.
Example C59_evidence_nonvacuous : forall T d n, (0 <= T)%R -> (0 <= d <= 1)%R -> exists c' b b' e e', bp_of ex6_g T c' /\ arrays_of c' ex6_a /\
  get_beliefs (ex_c T) (run_bp (ex_c T) ex7_a n d) = Ok b /\ get_beliefs c' (run_bp c' ex6_a n d) = Ok b' /\
  dget vg_eqb (VA ex_vg) b = Some e /\ dget vg_eqb (VA ex_vg) b' = Some e' /\
  forall i, i < 5 -> row (VA ex_vg) e' i = row (VA ex_vg) e i.
Proof.
  intros T d n HT Hd. destruct (ex_given T) as [H1 [H2 [H3 [H4 _]]]]. assert (H5 : arrays_of (ex_c T) ex7_a) by (now apply ex_arrays_of). destruct (ex6_bp T) as [c' [H6 H7]].
  destruct (C59_evidence ex_vgs ex_g ex6_g T (ex_c T) c' H1 H2 H3 H4 (ex6_reach IZR ex6_l) (ex6_wf IZR ex6_l eq_refl) H6 ex7_a ex6_a H5 H7 d 10%R 10%R 10%R 10%R 10 2 12 2 HT Hd
    ex7_moderate ex6_moderate ex_supported ex6_supported ex_above ex6_above ex7_p ex6_th ex7_extends ex7_pots ex7_sep ex7_evidence ex7_msgs ex7_settled ex_pos ex_not_one n)
    as [b [q [b' [q' [E1 [_ [E2 [_ C]]]]]]]].
  destruct (C (VA ex_vg) (or_introl eq_refl)) as [e [y [e' [y' [E3 [_ [E4 [_ R]]]]]]]]. exists c', b, b', e, e'. do 6 (split; [assumption|]).
  intros i Hi. destruct i as [|[|[|[|[|i]]]]]; [| | | | |lia]; [apply (R 0 b0 eq_refl)|apply (R 1 b1 eq_refl)|apply (R 2 b2 eq_refl)|apply (R 3 b3 eq_refl)|apply (R 4 b4 eq_refl)].
Qed.

(** The same factor with potential 7 for all four combinations, in a fresh run. *)
Definition ex8_l : list Z := [7; 7; 7; 7]%Z.
Notation ex8_g := (ex6_graph IZR ex8_l).
Definition ex8_st : fg_state R :=
  ltac:(let r := eval vm_compute in (compile_fg_state (fun _ => 0%Z) (ex6_graph IZR ex8_l)) in
        match r with Ok ?s => exact s end).
Definition ex8_extra : sfactor R := SF [b0; b3] [[0; 0]; [0; 1]; [1; 0]; [1; 1]]%Z (map IZR ex8_l).
Definition ex8_fs : list (sfactor R) := [nth 0 ex_rfs ex8_extra; nth 1 ex_rfs ex8_extra; ex8_extra; nth 2 ex_rfs ex8_extra; nth 3 ex_rfs ex8_extra].
Lemma ex8_factors : graph_factors 0%R (gr_groups ex8_g) = ex8_fs.
Proof. reflexivity. Qed.
Lemma ex8_perm : Permutation ex8_fs (ex_rfs ++ [ex8_extra]).
Proof. change ex_rfs with [nth 0 ex_rfs ex8_extra; nth 1 ex_rfs ex8_extra; nth 2 ex_rfs ex8_extra; nth 3 ex_rfs ex8_extra]. do 2 apply perm_skip. apply (Permutation_cons_append [_; _]). Qed.
Lemma ex8_uninformative : Forall uninformative [ex8_extra].
Proof. constructor; [|constructor]. split; [exact (pair_complete _)|]. exists 7%R. intros k Hk. do 4 (destruct k as [|k]; [reflexivity|]). cbn in Hk. lia. Qed.
Lemma ex8_fresh T : exists c', fresh_bp ex8_g T c' /\ exists a', bp_init c' None None (Some ex_updates) = Ok a'.
Proof.
  destruct (BP {| bs_log_potentials := {| c_state := (7, ex8_st); c_value := st_log_potentials ex8_st |};
       bs_ftov_msgs := {| c_state := (7, ex8_st); c_value := repeat 0%R 26 |};
       bs_evidence := {| c_state := (7, ex8_st); c_value := repeat 0%R 11 |} |} T) as [c'|e] eqn:E; [|discriminate].
  exists c'. split; [exists (fun _ => 0%Z), ex8_st, 7; eexists; split; [vm_compute; reflexivity|]; split; [reflexivity|exact E]|].
  injection E as <-. eexists. reflexivity.
Qed.
Lemma ex8_moderate : moderate ex8_fs (fun f k => nth k (sf_pots (factor_at ex8_fs f)) 0%R) (length ex8_fs)
  (read_ev (gr_vars_to_starts ex_g) ex_evidence) 10 10 12 3.
Proof.
  split; [|split; [|split; [|split; [|split; [|split; cbn [INR]; lra]]]]].
  - intros x s _ _. unfold read_ev. generalize (start_of (gr_vars_to_starts ex_g) x + s). intros i. unfold ex_evidence.
    do 11 (destruct i as [|i]; [cbn; lra|]). destruct i; cbn; lra.
  - intros f k Hf _. assert (Hf5 : f < 5) by exact Hf.
    destruct f as [|[|[|[|[|]]]]]; [| | | | |lia]; (do 4 (destruct k as [|k]; [cbn; lra|])); destruct k; cbn; lra.
  - intros x. unfold slots_of. eapply Nat.le_trans; [apply filter_length_le|]. vm_compute. lia.
  - intros f Hf. assert (Hf5 : f < 5) by exact Hf. destruct f as [|[|[|[|[|]]]]]; [| | | | |lia]; vm_compute; lia.
  - intros f u s Hf Hu Hs. assert (Hf5 : f < 5) by exact Hf.
    destruct f as [|[|[|[|[|]]]]]; [| | | | |lia]; (destruct u as [|[|[|]]]; try (exfalso; vm_compute in Hu; lia));
      (destruct s as [|[|[|]]]; try (exfalso; vm_compute in Hs; lia); vm_compute; discriminate).
Qed.
Lemma ex8_supported : supported (map snd (sf_edges ex8_fs)).
Proof. split; [vm_compute; discriminate|]. intros n Hn. vm_compute in Hn. repeat (destruct Hn as [<-|Hn]; [lia|]). destruct Hn. Qed.
Example C59_uninformative_nonvacuous : forall T d n, (0 <= T)%R -> (0 <= d <= 1)%R ->
  exists c' a' b b' e e', fresh_bp ex8_g T c' /\ bp_init c' None None (Some ex_updates) = Ok a' /\
  get_beliefs (ex_c T) (run_bp (ex_c T) (ex_arrays IZR (repeat 0%R 22) ex_evidence) n d) = Ok b /\
  get_beliefs c' (run_bp c' a' n d) = Ok b' /\
  dget vg_eqb (VA ex_vg) b = Some e /\ dget vg_eqb (VA ex_vg) b' = Some e' /\
  row (VA ex_vg) e' 0 = row (VA ex_vg) e 0 /\ row (VA ex_vg) e' 3 = row (VA ex_vg) e 3.
Proof.
  intros T d n HT Hd. destruct (ex2_fresh T) as [F1 [_ [_ [I1 _]]]]. destruct (ex8_fresh T) as [c' [F2 [a' I2]]]. destruct (ex_given T) as [H1 [H2 [H3 _]]].
  destruct (C59_uninformative ex_vgs ex_g ex8_g T (ex_c T) c' (Some ex_updates) _ a' [ex8_extra] H1 H2 (ex6_reach IZR ex8_l) H3 (ex6_wf IZR ex8_l eq_refl) ex8_perm ex8_uninformative F1 F2 I1 I2
    10%R 10%R 12 3 d n ex8_moderate HT Hd ex8_supported ex_pos ex_not_one) as [b [q [b' [q' [E1 [_ [E2 [_ C]]]]]]]].
  destruct (C (VA ex_vg) (or_introl eq_refl)) as [e [y [e' [y' [E3 [_ [E4 [_ R]]]]]]]]. exists c', a', b, b', e, e'. do 6 (split; [assumption|]).
  split; [apply (R 0 b0 eq_refl)|apply (R 3 b3 eq_refl)].
Qed.
