(** * Fixed points for the examples: on a clique of four binary variables, each two in a factor that
    prefers equal states, and on the triangle of [ExCycle]. *)
From Verif Require Import NumPy FGroup FGraph BPState BP Lists SpecVGroup SpecFactor SpecFGraph SpecAdd SpecWiring SpecState SpecBP SpecText SpecBeliefs SpecTree SpecStable SpecConv SpecFix.
From Verif Require Import LemFGraph LemGraph LemNum LemNorm LemRun LemIter LemTransfer LemConv LemFix ExBP ExCycle.
From Coq Require Import Lia QArith Qreals Reals Lra.
Local Close Scope Q_scope.
Local Close Scope R_scope.
Local Open Scope nat_scope.

Definition b3 : variable := (1000000003%Z, 2).
Definition kq_vg : varray := {| va_id := 1; va_shape := [4]; va_num_states := [2; 2; 2; 2] |}.
Definition kq_vgs : list vgroup := [VA kq_vg].
Definition kq_pots_z : list Z := [2; 0; 0; 2; 2; 0; 0; 2; 2; 0; 0; 2; 2; 0; 0; 2; 2; 0; 0; 2; 2; 0; 0; 2]%Z.
Definition kq_pairs : list (list variable) := [[b0; b1]; [b0; b2]; [b0; b3]; [b1; b2]; [b1; b3]; [b2; b3]].
Section Graph.
  Context {A : Type} (p : Z -> A).
  Definition kq_pair : fgroup A :=
    {| fg_id := 1; fg_kind := KPairwise 2 2; fg_type := TEnum; fg_vars := kq_pairs;
       fg_configs := mkArr [4; 2] [0; 0; 0; 1; 1; 0; 1; 1]%Z; fg_log_potentials := map p kq_pots_z |}.
  Definition kq_graph : fgraph A := fst (add_factors (AGroup kq_pair) (FactorGraph (GsList kq_vgs))).
  Definition kq_state : fg_state A :=
    ltac:(let r := eval vm_compute in (compile_fg_state (fun _ => 0%Z) kq_graph) in
          match r with Ok ?s => exact s end).
  Lemma kq_compiles : compile_fg_state (fun _ => 0%Z) kq_graph = Ok kq_state.
  Proof. vm_compute. reflexivity. Qed.
  Lemma kq_reach : reachable kq_vgs kq_graph.
  Proof. apply reach_add, reach_new. reflexivity. Qed.
  Lemma kq_wf : wf_groups (gr_groups kq_graph).
  Proof.
    intros t g Hg. change (gr_groups kq_graph) with (PT [kq_pair] [] []) in Hg. destruct t; cbn in Hg; try destruct Hg as [<-|[]]; try destruct Hg.
    split; [reflexivity|]. split; [|discriminate]. exists 4. split; [reflexivity|].
    intros vs Hvs. split; [repeat (destruct Hvs as [<-|Hvs]; [reflexivity|]); destruct Hvs|]. intros r u x Hr Hu.
    assert (Hu2 : u < 2) by (assert (E : length vs = 2) by (repeat (destruct Hvs as [<-|Hvs]; [reflexivity|]); destruct Hvs); rewrite <- E; apply nth_error_Some; congruence).
    repeat (destruct Hvs as [<-|Hvs]; [destruct r as [|[|[|[|]]]]; try lia; destruct u as [|[|]]; try lia; injection Hu as <-; vm_compute; split; congruence|]). destruct Hvs.
  Qed.
  Context `{Num A}.
  Definition kq_bs : bp_state A :=
    {| bs_log_potentials := {| c_state := (5, kq_state); c_value := st_log_potentials kq_state |};
       bs_ftov_msgs := {| c_state := (5, kq_state); c_value := repeat n0 24 |};
       bs_evidence := {| c_state := (5, kq_state); c_value := repeat n0 8 |} |}.
  Definition kq_ctx (T : A) : bp_ctx A :=
    {| bc_state := kq_bs; bc_temperature := T; bc_edges_num_states := repeat 2 12;
       bc_max_msg_size := 2; bc_var_states_for_edges := [0; 1; 2; 3; 0; 1; 4; 5; 0; 1; 6; 7; 2; 3; 4; 5; 2; 3; 6; 7; 4; 5; 6; 7]%Z |}.
  Lemma kq_bp_of T : bp_of kq_graph T (kq_ctx T).
  Proof. exists (fun _ => 0%Z), kq_bs. split; [exact kq_compiles|reflexivity]. Qed.
  Definition kq_arrays (msgs ev : list A) : bp_arrays A :=
    {| ba_log_potentials := map p kq_pots_z; ba_ftov_msgs := msgs; ba_evidence := ev |}.
  Lemma kq_arrays_of T msgs ev : length msgs = 24 -> length ev = 8 -> arrays_of (kq_ctx T) (kq_arrays msgs ev).
  Proof. intros H1 H2. repeat split; assumption. Qed.
End Graph.
Lemma kq_vgs_ok : groups_ok kq_vgs.
Proof.
  split; [|split].
  - constructor; [|constructor]. exists 1%Z, (NsIntArray (mkArr [4] [2; 2; 2; 2])), [4]. now split.
  - constructor; [vm_compute; discriminate|constructor].
  - constructor; constructor.
Qed.
Definition kq_g : fgraph R := kq_graph IZR.
Definition kq_c (T : R) : bp_ctx R := kq_ctx IZR T.
(** All variables prefer state 0, all messages state 1. *)
Definition kq_ev_z : list Z := [1; 0; 1; 0; 1; 0; 1; 0]%Z.
Definition kq_msgs_z : list Z := [-2; 0; -2; 0; -2; 0; -2; 0; -2; 0; -2; 0; -2; 0; -2; 0; -2; 0; -2; 0; -2; 0; -2; 0]%Z.
Definition kq_a : bp_arrays R := kq_arrays IZR (map IZR kq_msgs_z) (map IZR kq_ev_z).
Notation kq_rfs := (graph_factors 0%R (gr_groups kq_g)).
Lemma kq_given T : groups_ok kq_vgs /\ reachable kq_vgs kq_g /\ wf_groups (gr_groups kq_g) /\ bp_of kq_g T (kq_c T) /\ arrays_of (kq_c T) kq_a.
Proof.
  split; [exact kq_vgs_ok|]. split; [apply kq_reach|]. split; [apply kq_wf|]. split; [apply kq_bp_of|]. now apply kq_arrays_of.
Qed.
Lemma kq_supported : supported (map snd (sf_edges kq_rfs)).
Proof. split; [vm_compute; discriminate|]. intros n Hn. vm_compute in Hn. repeat (destruct Hn as [<-|Hn]; [lia|]). destruct Hn. Qed.
Lemma kq_slots : slots kq_rfs = [(0,0);(0,1);(1,0);(1,1);(2,0);(2,1);(3,0);(3,1);(4,0);(4,1);(5,0);(5,1)]. Proof. reflexivity. Qed.
Lemma kq_slots_of x : length (slots_of kq_rfs x) <= 12.
Proof.
  unfold slots_of. rewrite kq_slots. change 12 with (length [(0,0);(0,1);(1,0);(1,1);(2,0);(2,1);(3,0);(3,1);(4,0);(4,1);(5,0);(5,1)]).
  generalize [(0,0);(0,1);(1,0);(1,1);(2,0);(2,1);(3,0);(3,1);(4,0);(4,1);(5,0);(5,1)]. intros l.
  induction l as [|y l IH]; [apply le_n|]. cbn [filter length]. destruct (var_eqb _ _); cbn [length]; lia.
Qed.
Lemma kq_arity f : f < length kq_rfs -> arity kq_rfs f = 2.
Proof. intros Hf. assert (Hf6 : f < 6) by exact Hf. do 6 (destruct f as [|f]; [reflexivity|]). lia. Qed.
Lemma kq_pots_bounds f k : (0 <= graph_pots (gr_groups kq_g) (ba_log_potentials kq_a) f k <= 2)%R.
Proof.
  change (ba_log_potentials kq_a) with (map IZR kq_pots_z). unfold graph_pots, read_pots. destruct (f <? _); [|lra]. generalize (sf_first_config (enum_factors (gr_groups kq_g)) f + k). intros i.
  do 24 (destruct i as [|i]; [cbn; lra|]). destruct i; cbn; lra.
Qed.
Lemma kq_moderate : moderate kq_rfs (graph_pots (gr_groups kq_g) (ba_log_potentials kq_a)) (length (enum_factors (gr_groups kq_g)))
  (read_ev (gr_vars_to_starts kq_g) (ba_evidence kq_a)) 10 10 12 2.
Proof.
  split; [|split; [|split; [|split; [|split; [|split]]]]].
  - intros x s _ _. unfold read_ev. change (ba_evidence kq_a) with (map IZR kq_ev_z).
    generalize (start_of (gr_vars_to_starts kq_g) x + s). intros i.
    do 8 (destruct i as [|i]; [cbn; lra|]). destruct i; cbn; lra.
  - intros f k _ _. pose proof (kq_pots_bounds f k). lra.
  - exact kq_slots_of.
  - intros f Hf. rewrite kq_arity by exact Hf. lia.
  - intros f u s Hf Hu Hs. assert (Hf6 : f < 6) by exact Hf.
    do 6 (destruct f as [|f]; [destruct u as [|[|]]; [| |exfalso; vm_compute in Hu; lia];
      destruct s as [|[|]]; try (exfalso; vm_compute in Hs; lia); vm_compute; discriminate|]). lia.
  - cbn [INR]. lra.
  - cbn [INR]. lra.
Qed.
Lemma kq_above m : above_floor (map snd (sf_edges kq_rfs)) m.
Proof. intros e He. left. assert (e < 12) by exact He. do 12 (destruct e as [|e]; [reflexivity|]). lia. Qed.
Lemma kq_fix : ba_ftov_msgs (run_bp (kq_c 0) kq_a 1 0%R) = ba_ftov_msgs kq_a.
Proof.
  set (aq := kq_arrays inject_Z (map inject_Z kq_msgs_z) (map inject_Z kq_ev_z)).
  assert (E : run_bp (kq_ctx inject_Z 0%Q) aq 1 0%Q = aq) by (vm_compute; reflexivity).
  assert (Ea : kq_a = map_arrays Q2R aq) by (unfold aq, kq_a, kq_arrays, map_arrays; cbn [ba_log_potentials ba_ftov_msgs ba_evidence]; now rewrite !Q2R_map).
  assert (S : same_ctx (kq_ctx inject_Z 0%Q) (kq_c 0)) by (repeat split).
  pose proof (run_Q _ _ aq 1 0%Q S) as H. rewrite E, RMicromega.Q2R_0 in H. rewrite Ea, <- H. reflexivity.
Qed.
Lemma kq_pos gr n : In gr kq_vgs -> In n (vg_num_states gr) -> 0 < n.
Proof. intros [<-|[]] Hn. repeat (destruct Hn as [<-|Hn]; [lia|]). destruct Hn. Qed.
Lemma kq_not_one gr : In gr kq_vgs -> one_state gr = false.
Proof. intros [<-|[]]. reflexivity. Qed.
Lemma kq_vars : all_vars kq_vgs = [b0; b1; b2; b3]. Proof. reflexivity. Qed.
(** The beliefs, and the decoded states. *)
Lemma kq_beliefs r b : get_beliefs (kq_c 0) kq_a = Ok r -> belief_table kq_vgs r b -> forall x, In x (all_vars kq_vgs) -> b x 0 = (-5)%R /\ b x 1 = 0%R.
Proof.
  intros Er Tr. destruct (kq_given 0) as [H1 [H2 [H3 [H4 H5]]]].
  destruct (LemBeliefs.C33_lemma kq_vgs kq_g 0%R (kq_c 0) H1 H2 H3 H4 kq_a H5 kq_pos) as [r' [Er' [_ D]]]. rewrite Er in Er'. injection Er' as <-.
  destruct (D (VA kq_vg) (or_introl eq_refl)) as [y [Ey [_ Ry]]]. intros x Hx. rewrite kq_vars in Hx.
  assert (Hi : exists i, nth_error (vg_variables (VA kq_vg)) i = Some x /\ snd x = 2) by (destruct Hx as [<-|[<-|[<-|[<-|[]]]]]; [exists 0|exists 1|exists 2|exists 3]; split; reflexivity).
  destruct Hi as [i [Hi E2]]. destruct (Tr (VA kq_vg) (or_introl eq_refl)) as [y' [Ey' Ty]]. rewrite Ey in Ey'. injection Ey' as <-.
  pose proof (Ty i x 0 Hi ltac:(lia)) as T0. pose proof (Ty i x 1 Hi ltac:(lia)) as T1.
  rewrite (Ry i x Hi), E2 in T0, T1. cbn [seq map app nth_error] in T0, T1. injection T0 as T0. injection T1 as T1. rewrite <- T0, <- T1.
  destruct Hx as [<-|[<-|[<-|[<-|[]]]]]; split; cbv -[IZR Rplus]; lra.
Qed.
Lemma kq_states r q st : get_beliefs (kq_c 0) kq_a = Ok r -> decode_map_states r = Ok q -> state_table kq_vgs q st -> forall x, In x (all_vars kq_vgs) -> st x = 1.
Proof.
  intros Er Eq Tq. destruct (kq_given 0) as [H1 [H2 [H3 [H4 H5]]]].
  destruct (LemBeliefs.C34_lemma kq_vgs kq_g 0%R (kq_c 0) H1 H2 H3 H4 kq_a H5 kq_pos kq_not_one) as [r' [q' [Er' [Eq' [_ D]]]]]. rewrite Er in Er'. injection Er' as <-. rewrite Eq in Eq'. injection Eq' as <-.
  destruct (D (VA kq_vg) (or_introl eq_refl)) as [y [Ey [_ Ry]]]. intros x Hx. rewrite kq_vars in Hx.
  assert (Hi : exists i, nth_error (vg_variables (VA kq_vg)) i = Some x /\ snd x = 2) by (destruct Hx as [<-|[<-|[<-|[<-|[]]]]]; [exists 0|exists 1|exists 2|exists 3]; split; reflexivity).
  destruct Hi as [i [Hi E2]]. destruct (Tq (VA kq_vg) (or_introl eq_refl)) as [y' [Ey' Ty]]. rewrite Ey in Ey'. injection Ey' as <-. pose proof (Ty i x Hi) as T0. destruct (Ry i x Hi) as [s [Es [F1 [F2 _]]]]. rewrite T0 in Es. injection Es as <-.
  rewrite E2 in F1, F2. specialize (F2 1 ltac:(lia)). destruct (st x) as [|[|]] eqn:Est; [exfalso|reflexivity|lia].
  revert F2. destruct Hx as [<-|[<-|[<-|[<-|[]]]]]; cbv -[IZR Rplus Rle]; lra.
Qed.
Lemma kq_msgs f u s : (-1000 < read_msgs kq_rfs (ba_ftov_msgs kq_a) f u s)%R.
Proof.
  unfold read_msgs. change (ba_ftov_msgs kq_a) with (map IZR kq_msgs_z). generalize (slot_index kq_rfs f u s). intros i.
  do 24 (destruct i as [|i]; [cbn; lra|]). destruct i; cbn; lra.
Qed.
(** Any three of the variables form a loop. *)
Lemma kq_loose (S : variable -> bool) : (exists x, In x (all_vars kq_vgs) /\ S x = false) -> loosely_coupled kq_rfs S.
Proof.
  intros [z [Hz Sz]]. rewrite kq_vars in Hz. exists (fun f u => if S (var_at kq_rfs f 0) && S (var_at kq_rfs f 1) then 1 / 2 else 1)%R. split; [|split].
  - intros f u. destruct (_ && _); lra.
  - intros f Hf. rewrite (kq_arity f Hf). cbn [seq filter].
    destruct (S (var_at kq_rfs f 0)) eqn:E0, (S (var_at kq_rfs f 1)) eqn:E1; unfold rsum; cbn [andb map fold_right]; lra.
  - intros x Sx. unfold slots_of. rewrite kq_slots. cbn [filter fst snd].
    repeat match goal with |- context [var_at kq_rfs ?f ?u] => let v := eval vm_compute in (var_at kq_rfs f u) in
      let w := match v with (1000000000%Z, _) => b0 | (1000000001%Z, _) => b1 | (1000000002%Z, _) => b2 | (1000000003%Z, _) => b3 end in change (var_at kq_rfs f u) with w end.
    assert (Hx : In x [b0; b1; b2; b3] \/ (var_eqb b0 x = false /\ var_eqb b1 x = false /\ var_eqb b2 x = false /\ var_eqb b3 x = false)).
    { destruct (var_eqb b0 x) eqn:E0; [apply var_eqb_eq in E0; left; subst x; now left|].
      destruct (var_eqb b1 x) eqn:E1; [apply var_eqb_eq in E1; left; subst x; right; now left|].
      destruct (var_eqb b2 x) eqn:E2; [apply var_eqb_eq in E2; left; subst x; right; right; now left|].
      destruct (var_eqb b3 x) eqn:E3; [apply var_eqb_eq in E3; left; subst x; right; right; right; now left|]. right. repeat split; reflexivity. }
    destruct Hx as [Hx|[-> [-> [-> ->]]]]; [|unfold rsum; cbn [map fold_right]; lra].
    destruct Hx as [<-|[<-|[<-|[<-|[]]]]];
      repeat match goal with |- context [var_eqb ?p ?q] => let v := eval vm_compute in (var_eqb p q) in change (var_eqb p q) with v end; unfold rsum; cbn [map fold_right fst snd];
      repeat match goal with |- context [var_at kq_rfs ?f ?u] => let v := eval vm_compute in (var_at kq_rfs f u) in
        let w := match v with (1000000000%Z, _) => b0 | (1000000001%Z, _) => b1 | (1000000002%Z, _) => b2 | (1000000003%Z, _) => b3 end in change (var_at kq_rfs f u) with w end;
      rewrite Sx; destruct Hz as [<-|[<-|[<-|[<-|[]]]]]; try congruence; rewrite ?Sz, ?Bool.andb_false_r; cbn [andb];
      repeat match goal with |- context [if ?t then _ else _] => destruct t end; lra.
Qed.
(** The decoded states are not globally best. *)
Definition kq_score := joint_score kq_rfs (graph_pots (gr_groups kq_g) (ba_log_potentials kq_a)) (read_ev (gr_vars_to_starts kq_g) (ba_evidence kq_a)) (all_vars kq_vgs).
Lemma kq_zeros : joint kq_rfs (all_vars kq_vgs) (fun _ => 0) (fun _ => 0) /\ kq_score (fun _ => 0) (fun _ => 0) = 16%R.
Proof.
  split.
  - split; [intros x Hx; rewrite kq_vars in Hx; destruct Hx as [<-|[<-|[<-|[<-|[]]]]]; cbn; lia|].
    intros f Hf. assert (Hf6 : f < 6) by exact Hf.
    do 6 (destruct f as [|f]; [split; [vm_compute; lia|]; intros u Hu; destruct u as [|[|]]; [reflexivity|reflexivity|exfalso; vm_compute in Hu; lia]|]). lia.
  - unfold kq_score, joint_score. rewrite kq_vars. change (length kq_rfs) with 6. cbn [map seq]. unfold rsum. cbn [fold_right].
    cbv -[IZR Rplus]. lra.
Qed.
Lemma kq_ones st cf : (forall x, In x (all_vars kq_vgs) -> st x = 1) -> (kq_score st cf <= 12)%R.
Proof.
  intros H. unfold kq_score, joint_score.
  assert (E1 : rsum (map (fun x => read_ev (gr_vars_to_starts kq_g) (ba_evidence kq_a) x (st x)) (all_vars kq_vgs)) = 0%R).
  { rewrite (LemNum.rsum_ext _ (fun x => read_ev (gr_vars_to_starts kq_g) (ba_evidence kq_a) x 1)) by (intros x Hx; now rewrite H). cbv -[IZR Rplus]. lra. }
  rewrite E1. apply Rle_trans with (0 + rsum (map (fun _ : nat => 2%R) (seq 0 (length kq_rfs))))%R.
  - apply Rplus_le_compat_l. apply rsum_le. intros f _. apply kq_pots_bounds.
  - rewrite rsum_const, seq_length. change (length kq_rfs) with 6. cbn [INR]. lra.
Qed.
Lemma kq_hyps r q b st : get_beliefs (kq_c 0) kq_a = Ok r -> decode_map_states r = Ok q -> belief_table kq_vgs r b -> state_table kq_vgs q st ->
  forall x s, In x (all_vars kq_vgs) -> s < snd x -> s <> st x -> (b x s < b x (st x))%R.
Proof.
  intros Er Eq Tr Tq x s Hx Hs Hne. rewrite (kq_states r q st Er Eq Tq x Hx) in *. destruct (kq_beliefs r b Er Tr x Hx) as [B0 B1].
  assert (E2 : snd x = 2) by (rewrite kq_vars in Hx; destruct Hx as [<-|[<-|[<-|[<-|[]]]]]; reflexivity). rewrite E2 in Hs. destruct s as [|[|]]; [lra|contradiction|lia].
Qed.
Lemma C57_global_refuted_lemma : ~ (forall vgs (g : fgraph R) (c : bp_ctx R),
  groups_ok vgs -> reachable vgs g -> wf_groups (gr_groups g) -> bp_of g 0%R c ->
  forall a, arrays_of c a ->
  (forall gr n, In gr vgs -> In n (vg_num_states gr) -> 0 < n) ->
  let fs := graph_factors 0%R (gr_groups g) in
  let pots := graph_pots (gr_groups g) (ba_log_potentials a) in
  let ev := read_ev (gr_vars_to_starts g) (ba_evidence a) in
  let lens := map snd (sf_edges fs) in
  let m := read_msgs fs (ba_ftov_msgs a) in
  let xs := all_vars vgs in
  forall B P D K, moderate fs pots (length (enum_factors (gr_groups g))) ev B P D K ->
  supported lens -> above_floor lens (ba_ftov_msgs a) ->
  ba_ftov_msgs (run_bp c a 1 0%R) = ba_ftov_msgs a ->
  (forall gr, In gr vgs -> one_state gr = false) -> (forall f, f < length fs -> 0 < arity fs f) ->
  forall r q b st, get_beliefs c a = Ok r -> decode_map_states r = Ok q -> belief_table vgs r b -> state_table vgs q st ->
  (forall x s, In x xs -> s < snd x -> s <> st x -> (b x s < b x (st x))%R) ->
  (forall f u, f < length fs -> u < arity fs f -> (-1000 < m f u (st (var_at fs f u)))%R) ->
  exists cf, joint fs xs st cf /\ forall st' cf', joint fs xs st' cf' -> (joint_score fs pots ev xs st' cf' <= joint_score fs pots ev xs st cf)%R).
Proof.
  intros H. destruct (kq_given 0) as [H1 [H2 [H3 [H4 H5]]]].
  assert (Har : forall f, f < length kq_rfs -> 0 < arity kq_rfs f) by (intros f Hf; rewrite kq_arity by exact Hf; lia).
  destruct (C57_optimal_lemma kq_vgs kq_g 0%R (kq_c 0) H1 H2 H3 H4 kq_a H5 kq_pos 10%R 10%R 12 2 0%R kq_moderate (Rle_refl 0) ltac:(lra) kq_supported (kq_above _) kq_fix eq_refl kq_not_one Har)
    as [r [q [b [st [Er [Eq [Tr [Tq _]]]]]]]].
  destruct (H kq_vgs kq_g (kq_c 0) H1 H2 H3 H4 kq_a H5 kq_pos 10%R 10%R 12 2 kq_moderate kq_supported (kq_above _) kq_fix kq_not_one Har r q b st Er Eq Tr Tq
    (kq_hyps r q b st Er Eq Tr Tq) (fun f u _ _ => kq_msgs f u _)) as [cf [_ O]].
  destruct kq_zeros as [J E]. specialize (O _ _ J). pose proof (kq_ones st cf (kq_states r q st Er Eq Tq)) as L. unfold kq_score in *. lra.
Qed.

(** ** The triangle *)
Definition tri_ev_z : list Z := [9; 0; 0; 1; 2; 0]%Z.
Definition tri_msgs_z : list Z := [-3; 0; 0; -4; -2; 0; 0; -3; -4; 0; -4; 0]%Z.
Definition tri_a : bp_arrays R := cy_arrays IZR (map IZR tri_msgs_z) (map IZR tri_ev_z).
Notation tri_rfs := (graph_factors 0%R (gr_groups cy_g)).
Lemma tri_given : groups_ok cy_vgs /\ reachable cy_vgs cy_g /\ wf_groups (gr_groups cy_g) /\ bp_of cy_g 0%R (cy_c 0) /\ arrays_of (cy_c 0) tri_a.
Proof. destruct (cy_given 0 (map IZR tri_ev_z) eq_refl) as [H1 [H2 [H3 [H4 _]]]]. do 4 (split; [assumption|]). now apply cy_arrays_of. Qed.
Lemma tri_fix : ba_ftov_msgs (run_bp (cy_c 0) tri_a 1 0%R) = ba_ftov_msgs tri_a.
Proof.
  set (aq := cy_arrays inject_Z (map inject_Z tri_msgs_z) (map inject_Z tri_ev_z)).
  assert (E : run_bp (cy_ctx inject_Z 0%Q) aq 1 0%Q = aq) by (vm_compute; reflexivity).
  assert (Ea : tri_a = map_arrays Q2R aq) by (unfold aq, tri_a, cy_arrays, map_arrays; cbn [ba_log_potentials ba_ftov_msgs ba_evidence]; now rewrite !Q2R_map).
  assert (S : same_ctx (cy_ctx inject_Z 0%Q) (cy_c 0)) by (repeat split).
  pose proof (run_Q _ _ aq 1 0%Q S) as H. rewrite E, RMicromega.Q2R_0 in H. rewrite Ea, <- H. reflexivity.
Qed.
Lemma tri_moderate : moderate tri_rfs (graph_pots (gr_groups cy_g) (ba_log_potentials tri_a)) (length (enum_factors (gr_groups cy_g)))
  (read_ev (gr_vars_to_starts cy_g) (ba_evidence tri_a)) 10 10 6 2.
Proof. apply cy_moderate. intros i. change (ba_evidence tri_a) with (map IZR tri_ev_z). do 6 (destruct i as [|i]; [cbn; lra|]). destruct i; cbn; lra. Qed.
Lemma tri_pos gr n : In gr cy_vgs -> In n (vg_num_states gr) -> 0 < n.
Proof. intros [<-|[]] Hn. repeat (destruct Hn as [<-|Hn]; [lia|]). destruct Hn. Qed.
Lemma tri_not_one gr : In gr cy_vgs -> one_state gr = false.
Proof. intros [<-|[]]. reflexivity. Qed.
Lemma tri_vars : all_vars cy_vgs = [b0; b1; b2]. Proof. reflexivity. Qed.
Lemma tri_beliefs r b : get_beliefs (cy_c 0) tri_a = Ok r -> belief_table cy_vgs r b -> forall x, In x (all_vars cy_vgs) -> (b x 1%nat < b x 0%nat)%R.
Proof.
  intros Er Tr. destruct tri_given as [H1 [H2 [H3 [H4 H5]]]].
  destruct (LemBeliefs.C33_lemma cy_vgs cy_g 0%R (cy_c 0) H1 H2 H3 H4 tri_a H5 tri_pos) as [r' [Er' [_ D]]]. rewrite Er in Er'. injection Er' as <-.
  destruct (D (VA cy_vg) (or_introl eq_refl)) as [y [Ey [_ Ry]]]. intros x Hx. rewrite tri_vars in Hx.
  assert (Hi : exists i, nth_error (vg_variables (VA cy_vg)) i = Some x /\ snd x = 2) by (destruct Hx as [<-|[<-|[<-|[]]]]; [exists 0|exists 1|exists 2]; split; reflexivity).
  destruct Hi as [i [Hi E2]]. destruct (Tr (VA cy_vg) (or_introl eq_refl)) as [y' [Ey' Ty]]. rewrite Ey in Ey'. injection Ey' as <-.
  pose proof (Ty i x 0 Hi ltac:(lia)) as T0. pose proof (Ty i x 1 Hi ltac:(lia)) as T1.
  rewrite (Ry i x Hi), E2 in T0, T1. cbn [seq map app nth_error] in T0, T1. injection T0 as T0. injection T1 as T1. rewrite <- T0, <- T1.
  destruct Hx as [<-|[<-|[<-|[]]]]; cbv -[IZR Rplus Rlt]; lra.
Qed.
Lemma tri_states r q st : get_beliefs (cy_c 0) tri_a = Ok r -> decode_map_states r = Ok q -> state_table cy_vgs q st -> forall x, In x (all_vars cy_vgs) -> st x = 0.
Proof.
  intros Er Eq Tq. destruct tri_given as [H1 [H2 [H3 [H4 H5]]]].
  destruct (LemBeliefs.C34_lemma cy_vgs cy_g 0%R (cy_c 0) H1 H2 H3 H4 tri_a H5 tri_pos tri_not_one) as [r' [q' [Er' [Eq' [_ D]]]]]. rewrite Er in Er'. injection Er' as <-. rewrite Eq in Eq'. injection Eq' as <-.
  destruct (D (VA cy_vg) (or_introl eq_refl)) as [y [Ey [_ Ry]]]. intros x Hx. rewrite tri_vars in Hx.
  assert (Hi : exists i, nth_error (vg_variables (VA cy_vg)) i = Some x /\ snd x = 2) by (destruct Hx as [<-|[<-|[<-|[]]]]; [exists 0|exists 1|exists 2]; split; reflexivity).
  destruct Hi as [i [Hi E2]]. destruct (Tq (VA cy_vg) (or_introl eq_refl)) as [y' [Ey' Ty]]. rewrite Ey in Ey'. injection Ey' as <-. pose proof (Ty i x Hi) as T0. destruct (Ry i x Hi) as [s [Es [F1 [F2 _]]]]. rewrite T0 in Es. injection Es as <-.
  rewrite E2 in F1, F2. specialize (F2 0 ltac:(lia)). destruct (st x) as [|[|]] eqn:Est; [reflexivity|exfalso|lia].
  revert F2. destruct Hx as [<-|[<-|[<-|[]]]]; cbv -[IZR Rplus Rle]; lra.
Qed.
Lemma tri_hyps r q b st : get_beliefs (cy_c 0) tri_a = Ok r -> decode_map_states r = Ok q -> belief_table cy_vgs r b -> state_table cy_vgs q st ->
  forall x s, In x (all_vars cy_vgs) -> s < snd x -> s <> st x -> (b x s < b x (st x))%R.
Proof.
  intros Er Eq Tr Tq x s Hx Hs Hne. rewrite (tri_states r q st Er Eq Tq x Hx) in *. pose proof (tri_beliefs r b Er Tr x Hx) as B.
  assert (E2 : snd x = 2) by (rewrite tri_vars in Hx; destruct Hx as [<-|[<-|[<-|[]]]]; reflexivity). rewrite E2 in Hs. destruct s as [|[|]]; [contradiction|exact B|lia].
Qed.
Lemma tri_msgs f u s : (-1000 < read_msgs tri_rfs (ba_ftov_msgs tri_a) f u s)%R.
Proof.
  unfold read_msgs. change (ba_ftov_msgs tri_a) with (map IZR tri_msgs_z). generalize (slot_index tri_rfs f u s). intros i.
  do 12 (destruct i as [|i]; [cbn; lra|]). destruct i; cbn; lra.
Qed.
Lemma tri_arity f : f < length tri_rfs -> 0 < arity tri_rfs f.
Proof. intros Hf. assert (Hf3 : f < 3) by exact Hf. do 3 (destruct f as [|f]; [vm_compute; lia|]). lia. Qed.
