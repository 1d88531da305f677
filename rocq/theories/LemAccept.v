(** * Lemmas for C49: accepted constructor arguments and default states. *)
From Verif Require Import FGraph BPState BP Lists SpecVGroup SpecFactor SpecFGraph SpecAdd SpecWiring SpecState SpecAccept.
From Verif Require Import LemVGroup LemFGraph LemEvidence LemGraph LemAdd LemState LemWorld.
From Coq Require Import Lia.
Local Open Scope nat_scope.

Lemma C49_varray_lemma id ns shp : wf_ns ns ->
  ((Z.of_nat (cells shp) <= 1000000000)%Z /\ states_fit ns shp ->
     exists v, NDVarArray id ns shp = Ok v /\ va_shape v = shp /\
       va_variables v = map (fun i => (id mod 2 ^ 32 * 1000000000 + Z.of_nat i, requested ns i)%Z) (seq 0 (cells shp))) /\
  (~ ((Z.of_nat (cells shp) <= 1000000000)%Z /\ states_fit ns shp) -> NDVarArray id ns shp = Raise ValueError).
Proof.
  intros Hwf. unfold NDVarArray. rewrite VarGroup_post_init_ok. cbn [bind]. change (prod shp) with (cells shp). unfold MAX_SIZE.
  split.
  - intros [Hs Hf]. replace (1000000000 <? Z.of_nat (cells shp))%Z with false by (symmetry; apply Z.ltb_ge; lia).
    assert (K : forall l, length l = cells shp -> (forall i, i < cells shp -> nth i l 0 = requested ns i) ->
      va_variables {| va_id := id; va_shape := shp; va_num_states := l |}
      = map (fun i => (id mod 2 ^ 32 * 1000000000 + Z.of_nat i, requested ns i)%Z) (seq 0 (cells shp))).
    { intros l Hl Hn. apply (nth_ext _ _ (0%Z, 0) (0%Z, 0)).
      - rewrite va_variables_length by exact Hl. now rewrite map_length, seq_length.
      - intros i Hi. rewrite va_variables_length in Hi by exact Hl. change (i < cells shp) in Hi.
        rewrite nth_va_variables by assumption. cbn [va_id va_num_states].
        rewrite (nth_map _ _ _ _ 0) by now rewrite seq_length. rewrite seq_nth by assumption. cbn [Nat.add].
        now rewrite Hn by assumption. }
    destruct ns as [n|a|]; cbn [states_fit] in Hf.
    + eexists. split; [reflexivity|]. split; [reflexivity|]. apply K; [apply repeat_length|].
      intros i Hi. cbn [requested]. apply nth_repeat_lt. exact Hi.
    + replace (shape_eqb (shape a) shp) with true by (symmetry; now apply shape_eqb_eq).
      eexists. split; [reflexivity|]. split; [reflexivity|]. apply K; [|reflexivity].
      cbn in Hwf. unfold wf_arr in Hwf. now rewrite Hwf, Hf.
    + contradiction.
  - intros Hn. destruct (1000000000 <? Z.of_nat (cells shp))%Z eqn:E; [reflexivity|]. apply Z.ltb_ge in E.
    destruct ns as [n|a|]; cbn [states_fit] in Hn; [exfalso; tauto| |reflexivity].
    destruct (shape_eqb (shape a) shp) eqn:Es; [|reflexivity]. apply shape_eqb_eq in Es. tauto.
Qed.

Lemma C49_vdict_lemma id ns names : wf_ns ns ->
  (states_fit ns [length names] ->
     exists v, VarDict id ns names = Ok v /\ vd_names v = names /\
       vd_variables v = map (fun i => (id mod 2 ^ 32 * 1000000000 + Z.of_nat i, requested ns i)%Z) (seq 0 (length names))) /\
  (~ states_fit ns [length names] -> VarDict id ns names = Raise ValueError).
Proof.
  intros Hwf. unfold VarDict. rewrite VarGroup_post_init_ok. cbn [bind].
  split.
  - intros Hf.
    assert (K : forall l, length l = length names -> (forall i, i < length names -> nth i l 0 = requested ns i) ->
      vd_variables {| vd_id := id; vd_names := names; vd_num_states := l |}
      = map (fun i => (id mod 2 ^ 32 * 1000000000 + Z.of_nat i, requested ns i)%Z) (seq 0 (length names))).
    { intros l Hl Hn. apply (nth_ext _ _ (0%Z, 0) (0%Z, 0)).
      - unfold vd_variables. rewrite combine_length, vd_hashes_length, map_length, seq_length. cbn [vd_num_states vd_names]. lia.
      - intros i Hi. unfold vd_variables in Hi. rewrite combine_length, vd_hashes_length in Hi. cbn [vd_num_states vd_names] in Hi.
        rewrite nth_vd_variables by (cbn [vd_num_states vd_names]; lia). cbn [vd_id vd_num_states].
        rewrite (nth_map _ _ _ _ 0) by (rewrite seq_length; lia). rewrite seq_nth by lia. cbn [Nat.add].
        now rewrite Hn by lia. }
    destruct ns as [n|a|]; cbn [states_fit] in Hf.
    + eexists. split; [reflexivity|]. split; [reflexivity|]. apply K; [apply repeat_length|].
      intros i Hi. cbn [requested]. apply nth_repeat_lt. exact Hi.
    + replace (shape_eqb (shape a) [length names]) with true by (symmetry; now apply shape_eqb_eq).
      eexists. split; [reflexivity|]. split; [reflexivity|]. apply K; [|reflexivity].
      cbn in Hwf. unfold wf_arr in Hwf. rewrite Hwf, Hf. cbn. lia.
    + contradiction.
  - intros Hn. destruct ns as [n|a|]; cbn [states_fit] in Hn; [exfalso; tauto| |reflexivity].
    destruct (shape_eqb (shape a) [length names]) eqn:Es; [|reflexivity]. apply shape_eqb_eq in Es. tauto.
Qed.

Lemma C49_equality_lemma g h : vg_eqb g h = true <-> (vg_id g mod 2 ^ 32 = vg_id h mod 2 ^ 32)%Z.
Proof.
  split; [apply vg_eqb_ids|]. intros E. unfold vg_eqb, vg_hash. rewrite E. apply Z.eqb_refl.
Qed.

Lemma C49_add_lemma {A} (l1 l2 : list (add_arg A)) g g1 :
  add_factors AOther g = (g, Raise UnboundLocalError) /\
  (add_factors (AList l1) g = (g1, Ok tt) ->
   add_factors (AList (l1 ++ AOther :: l2)) g = (g1, Raise UnboundLocalError)).
Proof. split; [reflexivity|]. intros H. now apply C17_list_lemma with (1 := H). Qed.

Lemma call_fg_state_tuple {A} junk i (o : gobj A) w : gr_is_list (go_graph o) = false ->
  snd (call_fg_state junk i o w) = Raise AssertionError \/ exists s, snd (call_fg_state junk i o w) = Ok s.
Proof.
  intros E. unfold call_fg_state. destruct (dget key_eqb (graph_key (go_graph o)) (wo_fg_state_cache w)) as [s|]; [right; now exists s|].
  destruct (call_log_potentials o (call_compute_offsets i o w)) as [w2 lps]. rewrite E. now left.
Qed.

Lemma call_offsets_graph {A} i (o : gobj A) w : nth_error (wo_graphs w) i = Some o ->
  exists o', nth_error (wo_graphs (call_compute_offsets i o w)) i = Some o' /\ go_graph o' = go_graph o.
Proof.
  intros H. unfold call_compute_offsets. destruct (dget key_eqb (graph_key (go_graph o)) (wo_offsets_cache w)); [now exists o|].
  cbn [wo_graphs]. eexists. split; [|shelve]. rewrite nth_error_upd_eq. rewrite H. reflexivity.
  Unshelve. reflexivity.
Qed.

Lemma C49_tuple_lemma {A} (ops : list (op A)) i g junk :
  no_direct_offsets ops -> distinct_ids (graphs_after ops) -> nth_error (graphs_after ops) i = Some g ->
  gr_is_list g = false ->
  compile_fg_state junk g = Raise AssertionError /\
  snd (step (world_after ops) (OFgState i junk)) = Raise AssertionError /\
  snd (step (world_after ops) (OBpState i junk)) = Raise AssertionError.
Proof.
  intros Hd Hids Hg El.
  assert (Ec : compile_fg_state junk g = Raise AssertionError) by (unfold compile_fg_state; now rewrite El).
  destruct (C19_lemma ops i g junk junk Hd Hids Hg) as [F [B _]]. cbv zeta in F, B.
  split; [exact Ec|]. destruct (after_nth ops i g Hg) as [o [E Eo]]. rewrite <- Eo in *.
  set (w := world_after ops) in *. clearbody w. split.
  - cbn [step] in *. rewrite E in *. destruct (call_fg_state_tuple junk i o w El) as [T|[s T]].
    + destruct (call_fg_state junk i o w) as [w' r]. cbn [snd] in *. now rewrite T.
    + destruct (call_fg_state junk i o w) as [w' r]. cbn [snd] in *. rewrite T in *. cbn [bind] in *.
      specialize (F (snd s)). rewrite Ec in F. destruct F as [F _]. destruct s as [n s]. discriminate F. now exists n.
  - cbn [step] in *. rewrite E in *. destruct (call_offsets_graph i o w E) as [o' [E' Eg]]. rewrite E' in *.
    rewrite <- Eg in El. destruct (call_fg_state_tuple junk i o' (call_compute_offsets i o w) El) as [T|[s T]].
    + destruct (call_fg_state junk i o' _) as [w' r]. cbn [snd] in *. now rewrite T.
    + destruct (call_fg_state junk i o' _) as [w' r]. cbn [snd] in *. rewrite T in *. cbn [bind] in *.
      specialize (B (snd s)). rewrite Ec in B. destruct B as [B _]. destruct s as [n s]. discriminate B. now exists n.
Qed.

Lemma slice_repeat {A} (x : A) n a k : a + k <= n -> slice (repeat x n) a (a + k) = repeat x k.
Proof.
  intros H. unfold slice. replace n with (a + (k + (n - a - k))) by lia. rewrite !repeat_app.
  rewrite skipn_app, skipn_all2 by (rewrite repeat_length; lia). rewrite repeat_length, Nat.sub_diag. cbn [skipn app].
  replace (a + k - a) with k by lia. rewrite firstn_app, firstn_all2 by (rewrite repeat_length; lia).
  rewrite repeat_length, Nat.sub_diag. cbn [firstn]. apply app_nil_r.
Qed.

Lemma C49_default_lemma {A} `{Num A} gs (g : fgraph A) junk st n :
  groups_ok gs -> reachable gs g -> compile_fg_state junk g = Ok st -> wf_groups (gr_groups g) ->
  NoDup (map fg_id (all_groups (gr_groups g))) ->
  exists bs, default_bp_state (n, st) = Ok bs /\ bs_fg_state bs = st /\
    (forall h, In h (all_groups (gr_groups g)) -> LogPotentials_getitem (bs_log_potentials bs) h = Ok (fg_log_potentials h)) /\
    (forall x, In x (all_vars gs) -> Evidence_getitem (bs_evidence bs) x = Ok (repeat n0 (snd x))) /\
    (forall e x, nth_error (all_edges (gr_groups g)) e = Some x ->
       message (all_edges (gr_groups g)) (c_value (bs_ftov_msgs bs)) e = repeat n0 (snd x)).
Proof.
  intros Hg Hr Hc Hwf Hid. destruct (C36_initial_lemma g junk st n Hc Hid) as [c [Ec Hlp]]. cbn [LogPotentials] in Ec. injection Ec as <-.
  destruct (C06_compiled_lemma gs g junk st Hg Hr Hc) as [_ [Ev [En _]]].
  destruct (C06_lemma gs g Hg Hr) as [L1 [L2 _]].
  eexists. split; [unfold default_bp_state; cbn [LogPotentials FToVMessages Evidence bind]; unfold BPState, same_state; cbn [c_state fst]; rewrite Nat.eqb_refl; reflexivity|].
  split; [reflexivity|]. split; [exact Hlp|]. split.
  - intros x Hx. unfold Evidence_getitem. cbn [bs_evidence c_state snd c_value]. rewrite Ev.
    apply In_nth_error in Hx. destruct Hx as [k Hk]. pose proof (L1 k x Hk) as E. rewrite E. f_equal.
    apply slice_repeat. rewrite En. exact (proj2 (L2 x _ E)).
  - intros e x He. destruct (compiled_edges junk g st Hwf Hc) as [_ [_ [_ Et]]]. cbn [bs_ftov_msgs c_value snd]. unfold message.
    assert (Hl : e < length (all_edges (gr_groups g))) by (apply nth_error_Some; congruence).
    pose proof (edge_block _ _ Hl) as B. rewrite slice_repeat by (rewrite Et; exact B).
    f_equal. rewrite (nth_map _ _ _ _ x) by exact Hl. f_equal. now apply nth_error_nth.
Qed.

Lemma C49_logical_group_lemma {A} t id vars :
  (vars = [] -> LogicalFactorGroup (A := A) t id vars = Raise ValueError) /\
  (vars <> [] -> exists g, LogicalFactorGroup (A := A) t id vars = Ok g /\
     fg_id g = id /\ fg_kind g = KLogical /\ fg_type g = t /\ fg_vars g = vars /\ fg_log_potentials g = []).
Proof.
  split; intros H; destruct vars as [|v r]; try congruence; [reflexivity|]. eexists. split; [reflexivity|]. repeat split.
Qed.
