(** * Property C65: symmetric models get symmetric beliefs. *)
From Verif Require Import NumPy Lists VGroup FGraph BPState BP SpecVGroup SpecFGraph SpecFactor SpecAdd SpecWiring SpecState SpecBP SpecText SpecBeliefs SpecTree SpecPerm SpecLocal SpecDepth SpecSymm.
From Verif Require Import LemFGraph LemRun LemText LemBeliefs LemLocal LemDepth LemSymm ExBP PropsBeliefs.
From Coq Require Import Reals Lra Lia QArith Permutation.
Local Close Scope Q_scope.
Local Close Scope R_scope.
Local Open Scope nat_scope.

(** ** C65 *)
(** A symmetry of the factors, potentials, evidence and initial messages is one of the messages
    after any number of iterations, at any temperature and damping. *)
Theorem C65_messages :
  forall vgs (g : fgraph R) T (c : bp_ctx R),
  groups_ok vgs -> reachable vgs g -> wf_groups (gr_groups g) -> bp_of g T c ->
  forall a, arrays_of c a ->
  let fs := graph_factors 0%R (gr_groups g) in
  let pots := graph_pots (gr_groups g) (ba_log_potentials a) in
  let lens := map snd (sf_edges fs) in
  let ev := read_ev (gr_vars_to_starts g) (ba_evidence a) in
  let msgs b := read_msgs fs (ba_ftov_msgs b) in
  forall d B P D K, (0 <= T)%R -> (0 <= d <= 1)%R ->
  moderate fs pots (length (enum_factors (gr_groups g))) ev B P D K ->
  supported lens -> above_floor lens (ba_ftov_msgs a) ->
  forall p w r t, is_symmetry fs pots ev (msgs a) (all_vars vgs) p w r t ->
  forall n f u, f < length fs -> u < arity fs f ->
  same_msg fs p w t (msgs (run_bp c a n d)) (msgs (run_bp c a n d)) f u.
Proof. exact C65_messages_lemma. Qed.
Print Assumptions C65_messages.

(** Then the beliefs and marginals of two corresponding variables correspond state by state,
    and if states correspond to themselves the two decode to the same state. *)
Theorem C65_beliefs :
  forall vgs (g : fgraph R) T (c : bp_ctx R),
  groups_ok vgs -> reachable vgs g -> wf_groups (gr_groups g) -> bp_of g T c ->
  forall a, arrays_of c a ->
  let fs := graph_factors 0%R (gr_groups g) in
  let pots := graph_pots (gr_groups g) (ba_log_potentials a) in
  let lens := map snd (sf_edges fs) in
  let ev := read_ev (gr_vars_to_starts g) (ba_evidence a) in
  let msgs b := read_msgs fs (ba_ftov_msgs b) in
  forall d B P D K, (0 <= T)%R -> (0 <= d <= 1)%R ->
  moderate fs pots (length (enum_factors (gr_groups g))) ev B P D K ->
  supported lens -> above_floor lens (ba_ftov_msgs a) ->
  (forall gr k, In gr vgs -> In k (vg_num_states gr) -> 0 < k) -> (forall gr, In gr vgs -> one_state gr = false) ->
  forall n, exists b q z, get_beliefs c (run_bp c a n d) = Ok b /\ decode_map_states b = Ok q /\ get_marginals b = Ok z /\
  forall gr gr', In gr vgs -> In gr' vgs -> exists e y k e' y' k',
    dget vg_eqb gr b = Some e /\ dget vg_eqb gr q = Some y /\ dget vg_eqb gr z = Some k /\
    dget vg_eqb gr' b = Some e' /\ dget vg_eqb gr' q = Some y' /\ dget vg_eqb gr' z = Some k' /\
  forall p w r t i x i', is_symmetry fs pots ev (msgs a) (all_vars vgs) p w r t ->
    nth_error (vg_variables gr) i = Some x -> nth_error (vg_variables gr') i' = Some (r x) ->
    (forall s, s < snd x -> nth_error (row gr' e' i') (t x s) = nth_error (row gr e i) s /\ nth_error (row gr' k' i') (t x s) = nth_error (row gr k i) s) /\
    ((forall s, s < snd x -> t x s = s) -> cell gr' y' i' = cell gr y i).
Proof. exact C65_beliefs_lemma. Qed.
Print Assumptions C65_beliefs.

(** Ties are not broken: if symmetries take the first state of a variable to each of the
    others, all its beliefs are equal, it decodes to the first state, and its marginals are
    uniform. *)
Theorem C65_tied :
  forall vgs (g : fgraph R) T (c : bp_ctx R),
  groups_ok vgs -> reachable vgs g -> wf_groups (gr_groups g) -> bp_of g T c ->
  forall a, arrays_of c a ->
  let fs := graph_factors 0%R (gr_groups g) in
  let pots := graph_pots (gr_groups g) (ba_log_potentials a) in
  let lens := map snd (sf_edges fs) in
  let ev := read_ev (gr_vars_to_starts g) (ba_evidence a) in
  let msgs b := read_msgs fs (ba_ftov_msgs b) in
  forall d B P D K, (0 <= T)%R -> (0 <= d <= 1)%R ->
  moderate fs pots (length (enum_factors (gr_groups g))) ev B P D K ->
  supported lens -> above_floor lens (ba_ftov_msgs a) ->
  (forall gr k, In gr vgs -> In k (vg_num_states gr) -> 0 < k) -> (forall gr, In gr vgs -> one_state gr = false) ->
  forall n, exists b q z, get_beliefs c (run_bp c a n d) = Ok b /\ decode_map_states b = Ok q /\ get_marginals b = Ok z /\
  forall gr, In gr vgs -> exists e y k, dget vg_eqb gr b = Some e /\ dget vg_eqb gr q = Some y /\ dget vg_eqb gr z = Some k /\
  forall i x, nth_error (vg_variables gr) i = Some x -> alike fs pots ev (msgs a) (all_vars vgs) x ->
    exists v pad, row gr e i = repeat (Fin v) (snd x) ++ repeat NInf pad /\ cell gr y i = [0] /\
      row gr k i = repeat (1 / INR (snd x))%R (snd x) ++ repeat 0%R pad.
Proof. exact C65_tied_lemma. Qed.
Print Assumptions C65_tied.

(** ** Examples *)
(** A chain: three factors on b0, ..., b3, each of which prefers its two variables to differ. *)
Section Chain.
  Context {A : Type} (p : Z -> A).
  Definition ex16_enum : fgroup A :=
    {| fg_id := 1; fg_kind := KEnum; fg_type := TEnum; fg_vars := [[b0; b1]; [b1; b2]; [b2; b3]];
       fg_configs := mkArr [4; 2] [0; 0; 0; 1; 1; 0; 1; 1]%Z; fg_log_potentials := map p [0; 1; 1; 0; 0; 1; 1; 0; 0; 1; 1; 0]%Z |}.
  Definition ex16_graph : fgraph A := fst (add_factors (AList [AGroup ex16_enum]) (FactorGraph (GsList ex_vgs))).
  Lemma ex16_reach : reachable ex_vgs ex16_graph.
  Proof. apply reach_add, reach_new. reflexivity. Qed.
  Lemma ex16_groups : gr_groups ex16_graph = PT [ex16_enum] [] [].
  Proof. reflexivity. Qed.
  Lemma ex16_wf : wf_groups (gr_groups ex16_graph).
  Proof.
    intros t g Hg. rewrite ex16_groups in Hg. destruct t; cbn in Hg; [destruct Hg as [<-|[]]|destruct Hg|destruct Hg].
    split; [reflexivity|]. split; [|discriminate]. exists 4. split; [reflexivity|].
    intros vs Hvs. split; [destruct Hvs as [<-|[<-|[<-|[]]]]; reflexivity|].
    intros r u x Hr Hu.
    assert (Hu2 : u < 2) by (assert (E : length vs = 2) by (destruct Hvs as [<-|[<-|[<-|[]]]]; reflexivity); rewrite <- E; apply nth_error_Some; congruence).
    destruct Hvs as [<-|[<-|[<-|[]]]]; destruct r as [|[|[|[|]]]]; try lia; destruct u as [|[|]]; try lia; injection Hu as <-; vm_compute; split; congruence.
  Qed.
End Chain.
Definition ex16_st : fg_state R :=
  ltac:(let r := eval vm_compute in (compile_fg_state (fun _ => 0%Z) (ex16_graph IZR)) in
        match r with Ok ?s => exact s end).
Notation ex16_g := (ex16_graph IZR).
Notation ex16_fs := (graph_factors 0%R (gr_groups ex16_g)).
Definition ex16_bs : bp_state R :=
  {| bs_log_potentials := {| c_state := (9, ex16_st); c_value := st_log_potentials ex16_st |};
     bs_ftov_msgs := {| c_state := (9, ex16_st); c_value := repeat 0%R 12 |};
     bs_evidence := {| c_state := (9, ex16_st); c_value := repeat 0%R 11 |} |}.
(** Evidence [e] for the second state of b0 and b3. *)
Definition ex16_a (e : R) : bp_arrays R :=
  {| ba_log_potentials := map IZR [0; 1; 1; 0; 0; 1; 1; 0; 0; 1; 1; 0]%Z; ba_ftov_msgs := repeat 0%R 12;
     ba_evidence := [0; e; 0; 0; 0; 0; 0; e; 0; 0; 0]%R |}.
Notation ex16_pots := (graph_pots (gr_groups ex16_g) (map IZR [0; 1; 1; 0; 0; 1; 1; 0; 0; 1; 1; 0]%Z)).
Notation ex16_ev e := (read_ev (gr_vars_to_starts ex16_g) (ba_evidence (ex16_a e))).
Notation ex16_msgs e := (read_msgs ex16_fs (ba_ftov_msgs (ex16_a e))).
Lemma ex16_bp T : exists c, bp_of ex16_g T c /\ forall e, arrays_of c (ex16_a e).
Proof.
  destruct (BP ex16_bs T) as [c|e] eqn:E; [|discriminate]. exists c. split; [exists (fun _ => 0%Z), ex16_bs; split; [vm_compute; reflexivity|exact E]|].
  injection E as <-. repeat split.
Qed.
Lemma ex16_evb e i : (0 <= e <= 3)%R -> (0 <= nth i (ba_evidence (ex16_a e)) 0 <= 3)%R.
Proof. intros He. do 11 (destruct i as [|i]; [cbn; lra|]); destruct i; cbn; lra. Qed.
Lemma ex16_potsb f k : (0 <= ex16_pots f k <= 1)%R.
Proof.
  unfold graph_pots, read_pots. destruct (f <? _); [|lra]. match goal with |- (_ <= nth ?i _ _ <= _)%R => generalize i end. intros i.
  do 12 (destruct i as [|i]; [cbn; lra|]); destruct i; cbn; lra.
Qed.
Lemma ex16_moderate e : (0 <= e <= 3)%R -> moderate ex16_fs ex16_pots (length (enum_factors (gr_groups ex16_g))) (ex16_ev e) 10 10 10 2.
Proof.
  intros He. split; [|split; [|split; [|split; [|split; [|split; cbn [INR]; lra]]]]].
  - intros x s _ _. unfold read_ev. pose proof (ex16_evb e (start_of (gr_vars_to_starts ex16_g) x + s) He). lra.
  - intros f k _ _. pose proof (ex16_potsb f k). lra.
  - intros x. unfold slots_of. eapply Nat.le_trans; [apply filter_length_le|]. vm_compute. lia.
  - intros f Hf. assert (Hf2 : f < 3) by exact Hf. destruct f as [|[|[|]]]; [vm_compute; lia..|lia].
  - intros f u s Hf Hu Hs. assert (Hf2 : f < 3) by exact Hf. destruct f as [|[|[|]]]; [| | |lia]; (destruct u as [|[|u]]; try (exfalso; vm_compute in Hu; lia));
      (destruct s as [|[|s]]; try (exfalso; vm_compute in Hs; lia)); vm_compute; discriminate.
Qed.
Lemma ex16_supported : supported (map snd (sf_edges ex16_fs)).
Proof. split; [vm_compute; discriminate|]. intros n Hn. vm_compute in Hn. repeat (destruct Hn as [<-|Hn]; [lia|]). destruct Hn. Qed.
Lemma ex16_small e : (0 <= e <= 3)%R -> small ex16_fs 0 ex16_pots (ex16_ev e) (fun _ _ _ => 0%R) 1 3 0 4.
Proof.
  intros He. split; [lra|]. split; [lia|]. split; [|split; [|split; [|split]]].
  - intros f k k' _ _ _. pose proof (ex16_potsb f k). pose proof (ex16_potsb f k'). lra.
  - intros x s s' _ _ _. unfold read_ev. match goal with |- (nth ?i _ _ - nth ?j _ _ <= _)%R => pose proof (ex16_evb e i He); pose proof (ex16_evb e j He) end. lra.
  - intros f u s s' _ _ _ _. lra.
  - intros H. lra.
  - change (length ex16_fs) with 3. change (length (slots ex16_fs)) with 6. cbn [INR]. lra.
Qed.
Lemma ex16_depth : depth_within ex16_fs 3.
Proof. apply depth_check; [lia|vm_compute; reflexivity]. Qed.
Lemma ex16_zero e f u s : ex16_msgs e f u s = 0%R.
Proof. unfold read_msgs. cbn [ba_ftov_msgs ex16_a]. apply nth_repeat. Qed.
Lemma ex16_vars x : In x (all_vars ex_vgs) -> x = b0 \/ x = b1 \/ x = b2 \/ x = b3 \/ x = b4.
Proof. intros H. vm_compute in H. intuition. Qed.

(** Reversing the chain. *)
Definition rev_var (x : variable) : variable := (if fst x <? 1000000004 then 2000000003 - fst x else fst x, snd x)%Z.
Lemma ex16_reverse e : is_symmetry ex16_fs ex16_pots (ex16_ev e) (ex16_msgs e) (all_vars ex_vgs) (fun f => 2 - f) (fun _ u => 1 - u) rev_var (fun _ s => s).
Proof.
  split; [split|split; [|split]].
  - intros f Hf. assert (Hf2 : f < 3) by exact Hf. split; [change (2 - f < 3); lia|].
    destruct f as [|[|[|]]]; [| | |lia]; (split; [reflexivity|]; split;
      [split; [intros i Hi; change (arity _ _) with 2 in *; lia|intros i j Hi Hj; change (arity _ _) with 2 in *; lia]|]);
      intros u Hu; change (arity _ _) with 2 in Hu; (destruct u as [|[|]]; [reflexivity|reflexivity|lia]).
  - intros x _. split; [reflexivity|]. split; auto.
  - intros f Hf. assert (Hf2 : f < 3) by exact Hf.
    assert (E : forall k, k < 3 -> table ex16_fs ex16_pots k = [([0; 0]%Z, 0%R); ([0; 1]%Z, 1%R); ([1; 0]%Z, 1%R); ([1; 1]%Z, 0%R)]).
    { intros k Hk. destruct k as [|[|[|]]]; [reflexivity..|lia]. }
    exists [([0; 0]%Z, 0%R); ([1; 0]%Z, 1%R); ([0; 1]%Z, 1%R); ([1; 1]%Z, 0%R)]. rewrite !E by lia. split; [apply perm_skip, perm_swap|].
    assert (Ar : arity ex16_fs f = 2) by (destruct f as [|[|[|]]]; [reflexivity..|lia]).
    repeat constructor; rewrite Ar; intros u Hu; (destruct u as [|[|]]; [reflexivity|reflexivity|lia]).
  - intros x Hx. split; [reflexivity|]. split; [split; auto|]. apply ex16_vars in Hx.
    destruct Hx as [->|[->|[->|[->| ->]]]].
    + split; [vm_compute; apply Permutation_refl|]. intros s Hs. destruct s as [|[|]]; [reflexivity|reflexivity|cbn in Hs; lia].
    + split; [vm_compute; apply perm_swap|]. intros s Hs. destruct s as [|[|]]; [reflexivity|reflexivity|cbn in Hs; lia].
    + split; [vm_compute; apply perm_swap|]. intros s Hs. destruct s as [|[|]]; [reflexivity|reflexivity|cbn in Hs; lia].
    + split; [vm_compute; apply Permutation_refl|]. intros s Hs. destruct s as [|[|]]; [reflexivity|reflexivity|cbn in Hs; lia].
    + split; [vm_compute; apply Permutation_refl|]. intros s Hs. reflexivity.
  - intros f u Hf Hu s Hs. now rewrite !ex16_zero.
Qed.

(** Without evidence, renumbering the states of all variables. *)
Lemma mod_perm n s : 0 < n -> perm_below n (fun j => (j + s) mod n).
Proof.
  intros Hn. split; [intros i _; apply Nat.mod_upper_bound; lia|]. intros i j Hi Hj E.
  pose proof (Nat.div_mod (i + s) n ltac:(lia)) as Ei. pose proof (Nat.div_mod (j + s) n ltac:(lia)) as Ej. rewrite E in Ei.
  destruct (Nat.lt_trichotomy ((i + s) / n) ((j + s) / n)) as [L|[L|L]]; nia.
Qed.
Lemma ex16_shift s : s < 3 -> is_symmetry ex16_fs ex16_pots (ex16_ev 0) (ex16_msgs 0) (all_vars ex_vgs) (fun f => f) (fun _ u => u) (fun x => x) (fun x j => (j + s) mod snd x).
Proof.
  intros Hs.
  assert (Hpos : forall x, In x (all_vars ex_vgs) -> 0 < snd x) by (intros x Hx; apply ex16_vars in Hx; destruct Hx as [->|[->|[->|[->| ->]]]]; cbn; lia).
  split; [split|split; [|split]].
  - intros f Hf. split; [exact Hf|]. split; [reflexivity|]. split; [split; auto|]. reflexivity.
  - intros x Hx. split; [reflexivity|]. apply mod_perm, Hpos. vm_compute in Hx |- *. intuition.
  - intros f Hf. assert (Hf2 : f < 3) by exact Hf.
    assert (E : table ex16_fs ex16_pots f = [([0; 0]%Z, 0%R); ([0; 1]%Z, 1%R); ([1; 0]%Z, 1%R); ([1; 1]%Z, 0%R)]).
    { destruct f as [|[|[|]]]; [reflexivity..|lia]. }
    assert (Ar : arity ex16_fs f = 2) by (destruct f as [|[|[|]]]; [reflexivity..|lia]).
    assert (Tw : forall u, u < 2 -> snd (var_at ex16_fs f u) = 2) by (intros u Hu; destruct f as [|[|[|]]]; [| | |lia]; (destruct u as [|[|]]; [reflexivity|reflexivity|lia])).
    exists (if s =? 1 then [([1; 1]%Z, 0%R); ([1; 0]%Z, 1%R); ([0; 1]%Z, 1%R); ([0; 0]%Z, 0%R)]
            else [([0; 0]%Z, 0%R); ([0; 1]%Z, 1%R); ([1; 0]%Z, 1%R); ([1; 1]%Z, 0%R)]).
    rewrite E. destruct s as [|[|[|]]]; [| | |lia]; cbn [Nat.eqb];
      (split; [try apply Permutation_refl; exact (Permutation_rev [([0; 0]%Z, 0%R); ([0; 1]%Z, 1%R); ([1; 0]%Z, 1%R); ([1; 1]%Z, 0%R)])|]);
      repeat constructor; rewrite Ar; intros u Hu; rewrite (Tw u Hu); (destruct u as [|[|]]; [reflexivity|reflexivity|lia]).
  - intros x Hx. split; [reflexivity|]. split; [apply mod_perm, Hpos, Hx|]. split.
    + erewrite map_ext; [rewrite map_id; apply Permutation_refl|]. now intros [f u].
    + intros j Hj. unfold read_ev. change (ba_evidence (ex16_a 0)) with (repeat 0%R 11). now rewrite !nth_repeat.
  - intros f u Hf Hu j Hj. now rewrite !ex16_zero.
Qed.
Lemma ex16_alike x : In x (all_vars ex_vgs) -> alike ex16_fs ex16_pots (ex16_ev 0) (ex16_msgs 0) (all_vars ex_vgs) x.
Proof.
  intros Hx s Hs. exists (fun f => f), (fun _ u => u), (fun x => x), (fun x j => (j + s) mod snd x).
  split; [apply ex16_shift|split; [reflexivity|now apply Nat.mod_small]].
  apply ex16_vars in Hx. destruct Hx as [->|[->|[->|[->| ->]]]]; cbn in Hs; lia.
Qed.

(** The message from the first factor to b0 is that from the last to b3. *)
Example C65_messages_nonvacuous : exists c, bp_of ex16_g 1%R c /\ forall n s, s < 2 ->
  read_msgs ex16_fs (ba_ftov_msgs (run_bp c (ex16_a 3) n (1 / 2)%R)) 2 1 s = read_msgs ex16_fs (ba_ftov_msgs (run_bp c (ex16_a 3) n (1 / 2)%R)) 0 0 s.
Proof.
  destruct (ex16_bp 1%R) as [c [H4 H5]]. exists c. split; [exact H4|]. intros n s Hs.
  exact (C65_messages ex_vgs ex16_g 1 c ex_vgs_ok (ex16_reach IZR) (ex16_wf IZR) H4 (ex16_a 3) (H5 3%R) (1 / 2)%R 10%R 10%R 10 2 ltac:(lra) ltac:(lra)
    (ex16_moderate 3 ltac:(lra)) ex16_supported (zeros_floor _ _) _ _ _ _ (ex16_reverse 3) n 0 0 ltac:(vm_compute; lia) ltac:(vm_compute; lia) s Hs).
Qed.
(** b1 and b2 have the same beliefs and the same decoded state. *)
Example C65_beliefs_nonvacuous : exists c, bp_of ex16_g 0%R c /\ forall n, exists b q e y,
  get_beliefs c (run_bp c (ex16_a 3) n (1 / 2)%R) = Ok b /\ decode_map_states b = Ok q /\ dget vg_eqb (VA ex_vg) b = Some e /\ dget vg_eqb (VA ex_vg) q = Some y /\
  cell (VA ex_vg) y 2 = cell (VA ex_vg) y 1 /\ forall s, s < 2 -> nth_error (row (VA ex_vg) e 2) s = nth_error (row (VA ex_vg) e 1) s.
Proof.
  destruct (ex16_bp 0%R) as [c [H4 H5]]. exists c. split; [exact H4|]. intros n.
  destruct (C65_beliefs ex_vgs ex16_g 0 c ex_vgs_ok (ex16_reach IZR) (ex16_wf IZR) H4 (ex16_a 3) (H5 3%R) (1 / 2)%R 10%R 10%R 10 2 ltac:(lra) ltac:(lra)
    (ex16_moderate 3 ltac:(lra)) ex16_supported (zeros_floor _ _) ex_pos ex_not_one n) as [b [q [z [Eb [Eq [_ D]]]]]].
  destruct (D (VA ex_vg) (VA ex_vg) (or_introl eq_refl) (or_introl eq_refl)) as [e [y [k [e' [y' [k' [E1 [E2 [_ [E1' [E2' [_ F]]]]]]]]]]]].
  rewrite E1 in E1'. injection E1' as <-. rewrite E2 in E2'. injection E2' as <-. exists b, q, e, y. do 4 (split; [assumption|]).
  destruct (F _ _ _ _ 1 b1 2 (ex16_reverse 3) eq_refl eq_refl) as [F1 F2]. split; [now apply F2|]. intros s Hs. now apply F1.
Qed.
Lemma ex16_tied : exists c, bp_of ex16_g 0%R c /\ (forall e, arrays_of c (ex16_a e)) /\ forall n, exists b q y,
  get_beliefs c (run_bp c (ex16_a 0) n 0%R) = Ok b /\ decode_map_states b = Ok q /\ dget vg_eqb (VA ex_vg) q = Some y /\
  forall i x, nth_error (vg_variables (VA ex_vg)) i = Some x -> cell (VA ex_vg) y i = [0].
Proof.
  destruct (ex16_bp 0%R) as [c [H4 H5]]. exists c. split; [exact H4|]. split; [exact H5|]. intros n.
  destruct (C65_tied ex_vgs ex16_g 0 c ex_vgs_ok (ex16_reach IZR) (ex16_wf IZR) H4 (ex16_a 0) (H5 0%R) 0%R 10%R 10%R 10 2 ltac:(lra) ltac:(lra)
    (ex16_moderate 0 ltac:(lra)) ex16_supported (zeros_floor _ _) ex_pos ex_not_one n) as [b [q [z [Eb [Eq [_ D]]]]]].
  destruct (D (VA ex_vg) (or_introl eq_refl)) as [e [y [k [_ [E2 [_ F]]]]]]. exists b, q, y. do 3 (split; [assumption|]). intros i x Hi.
  destruct (F i x Hi) as [v [pad [_ [C _]]]]; [|exact C]. apply ex16_alike. unfold all_vars. cbn [ex_vgs map concat]. rewrite app_nil_r. now apply nth_error_In in Hi.
Qed.
(** All marginals of the binary variables are 1/2, and those of b4 are 1/3. *)
Example C65_tied_nonvacuous : exists c, bp_of ex16_g 1%R c /\ forall n, exists b z k, get_beliefs c (run_bp c (ex16_a 0) n 0%R) = Ok b /\ get_marginals b = Ok z /\
  dget vg_eqb (VA ex_vg) z = Some k /\ (exists pad, row (VA ex_vg) k 0 = [1 / 2; 1 / 2]%R ++ repeat 0%R pad) /\ exists pad, row (VA ex_vg) k 4 = [1 / 3; 1 / 3; 1 / 3]%R ++ repeat 0%R pad.
Proof.
  destruct (ex16_bp 1%R) as [c [H4 H5]]. exists c. split; [exact H4|]. intros n.
  destruct (C65_tied ex_vgs ex16_g 1 c ex_vgs_ok (ex16_reach IZR) (ex16_wf IZR) H4 (ex16_a 0) (H5 0%R) 0%R 10%R 10%R 10 2 ltac:(lra) ltac:(lra)
    (ex16_moderate 0 ltac:(lra)) ex16_supported (zeros_floor _ _) ex_pos ex_not_one n) as [b [q [z [Eb [_ [Ez D]]]]]].
  destruct (D (VA ex_vg) (or_introl eq_refl)) as [e [y [k [_ [_ [E3 F]]]]]]. exists b, z, k. do 3 (split; [assumption|]). split.
  - destruct (F 0 b0 eq_refl (ex16_alike b0 ltac:(vm_compute; auto))) as [v [pad [_ [_ C]]]]. exists pad. rewrite C. cbn [snd b0 repeat INR]. replace (1 + 1)%R with 2%R by lra. reflexivity.
  - destruct (F 4 b4 eq_refl (ex16_alike b4 ltac:(vm_compute; auto 10))) as [v [pad [_ [_ C]]]]. exists pad. rewrite C. cbn [snd b4 repeat INR]. replace (1 + 1 + 1)%R with 3%R by lra. reflexivity.
Qed.

(** So the decoded states of the variables, taken together, need not be an assignment with the
    largest score, even if the graph has no cycles and the beliefs are the max-marginals. In the
    chain all variables decode to 0. *)
Theorem C65_together_refuted :
  ~ (forall vgs (g : fgraph R) (c : bp_ctx R),
     groups_ok vgs -> reachable vgs g -> wf_groups (gr_groups g) -> bp_of g 0%R c ->
     forall a, arrays_of c a ->
     let fs := graph_factors 0%R (gr_groups g) in
     let pots := graph_pots (gr_groups g) (ba_log_potentials a) in
     let ev := read_ev (gr_vars_to_starts g) (ba_evidence a) in
     let lens := map snd (sf_edges fs) in
     (forall gr k, In gr vgs -> In k (vg_num_states gr) -> 0 < k) ->
     (forall gr, In gr vgs -> one_state gr = false) ->
     (forall f, f < length fs -> 0 < arity fs f) ->
     forall B P D K P' B' N', moderate fs pots (length (enum_factors (gr_groups g))) ev B P D K ->
     small fs 0 pots ev (fun _ _ _ => 0%R) P' B' 0 N' ->
     supported lens -> above_floor lens (ba_ftov_msgs a) ->
     forall L n, depth_within fs L -> L <= n ->
     forall b q st, get_beliefs c (run_bp c a n 0%R) = Ok b -> decode_map_states b = Ok q ->
     (forall gr y i x, In gr vgs -> dget vg_eqb gr q = Some y -> nth_error (vg_variables gr) i = Some x -> cell gr y i = [st x]) ->
     exists cf, joint fs (all_vars vgs) st cf /\
       forall st' cf', joint fs (all_vars vgs) st' cf' -> (joint_score fs pots ev (all_vars vgs) st' cf' <= joint_score fs pots ev (all_vars vgs) st cf)%R).
Proof.
  intros H. destruct ex16_tied as [c [H4 [H5 H6]]]. destruct (H6 3) as [b [q [y [Eb [Eq [Ey C]]]]]].
  destruct (H ex_vgs ex16_g c ex_vgs_ok (ex16_reach IZR) (ex16_wf IZR) H4 (ex16_a 0) (H5 0%R) ex_pos ex_not_one
    ltac:(intros f Hf; assert (Hf2 : f < 3) by exact Hf; destruct f as [|[|[|]]]; [vm_compute; lia..|lia])
    10%R 10%R 10 2 1%R 3%R 4 (ex16_moderate 0 ltac:(lra)) (ex16_small 0 ltac:(lra)) ex16_supported (zeros_floor _ _) 3 3 ex16_depth (le_n 3)
    b q (fun _ => 0) Eb Eq) as [cf [[_ J] Best]].
  - intros gr y' i x [<-|[]] Ey' Hi. rewrite Ey in Ey'. injection Ey' as <-. exact (C i x Hi).
  - pose (odd := fun x : variable => if var_eqb x b1 || var_eqb x b3 then 1 else 0).
    assert (Jo : joint ex16_fs (all_vars ex_vgs) odd (fun f => if f =? 1 then 2 else 1)).
    { split.
      - intros x Hx. apply ex16_vars in Hx. destruct Hx as [->|[->|[->|[->| ->]]]]; vm_compute; lia.
      - intros f Hf. assert (Hf2 : f < 3) by exact Hf. destruct f as [|[|[|]]]; [| | |lia]; (split; [vm_compute; lia|]);
          intros u Hu; (destruct u as [|[|]]; [vm_compute; reflexivity|vm_compute; reflexivity|vm_compute in Hu; lia]). }
    specialize (Best odd _ Jo).
    assert (Ev : forall st, rsum (map (fun x => ex16_ev 0 x (st x)) (all_vars ex_vgs)) = 0%R).
    { intros st. assert (Z : forall l, rsum (map (fun x => ex16_ev 0 x (st x)) l) = 0%R).
      { induction l as [|x l IH]; [reflexivity|]. cbn [map]. rewrite LemNum.rsum_cons, IH. unfold read_ev. change (ba_evidence (ex16_a 0)) with (repeat 0%R 11). rewrite nth_repeat. lra. }
      apply Z. }
    assert (Cf : forall f, f < 3 -> cf f = 0).
    { intros f Hf. destruct (J f Hf) as [J1 J2]. pose proof (J2 0) as K0. pose proof (J2 1) as K1.
      assert (cf f < 4) by (destruct f as [|[|[|]]]; [exact J1..|lia]).
      destruct f as [|[|[|]]]; [| | |lia]; (destruct (cf _) as [|[|[|[|]]]]; [reflexivity| | | |lia]); exfalso;
        specialize (K0 ltac:(vm_compute; lia)); specialize (K1 ltac:(vm_compute; lia)); vm_compute in K0, K1; discriminate. }
    unfold joint_score in Best. rewrite !Ev in Best. change (length ex16_fs) with 3 in Best. cbn [seq map] in Best.
    rewrite (Cf 0), (Cf 1), (Cf 2) in Best by lia. rewrite !LemNum.rsum_cons in Best. cbn in Best. unfold rsum in Best. cbn in Best. lra.
Qed.
Print Assumptions C65_together_refuted.
