(** * Lemmas on compiled graphs: logical concatenation, offsets, whole states. *)
From Verif Require Import FGraph Lists SpecVGroup SpecFactor SpecFGraph SpecAdd SpecWiring.
From Verif Require Import LemFactor LemAdd LemWiring.
From Coq Require Import Lia.
Local Open Scope nat_scope.

(** ** Concatenation of the logical groups of one type *)
Lemma lw_type_fields starts0 t vss :
  let w := lw_type starts0 t vss in
  lw_edges_num_states w = map snd (concat vss) /\
  lw_var_states_for_edges w = edge_var_states starts0 (concat vss) /\
  lw_parents_edge_states w = lf_parents (relevant_state t) vss /\
  lw_children_edge_states w = lf_children (relevant_state t) vss /\
  lw_edge_states_offset w = (match vss with [] => 1 | _ => type_offset t end)%Z.
Proof. destruct vss; simpl; auto. Qed.

Lemma lw_type_ne starts0 t vss : vss <> [] -> lw_type starts0 t vss = lw_ideal starts0 t vss.
Proof. destruct vss; [congruence|reflexivity]. Qed.

Lemma lf_children_length rs vss : length (lf_children rs vss) = length vss.
Proof. unfold lf_children. now rewrite map_length, seq_length. Qed.

Lemma cat_children_length starts0 t vsss :
  length (cat_children (map (lw_ideal starts0 t) vsss)) = length (concat vsss).
Proof.
  induction vsss as [|vss l IH] using rev_ind; [reflexivity|]. rewrite map_app. cbn [map].
  destruct (cat_snoc (map (lw_ideal starts0 t) l) (lw_ideal starts0 t vss)) as [_ ->].
  rewrite concat_snoc, !app_length, IH, map_length. cbn [lw_children_edge_states lw_ideal].
  now rewrite lf_children_length.
Qed.

Lemma concat_map_snd_vars (vsss : list (list (list variable))) :
  concat (map (fun vss => map snd (concat vss)) vsss) = map snd (concat (concat vsss)).
Proof. induction vsss as [|v l IH]; [reflexivity|]. simpl. now rewrite IH, concat_app, map_app. Qed.
Lemma concat_edge_var_states starts0 (vsss : list (list (list variable))) :
  concat (map (fun vss => edge_var_states starts0 (concat vss)) vsss) = edge_var_states starts0 (concat (concat vsss)).
Proof. induction vsss as [|v l IH]; [reflexivity|]. simpl. now rewrite IH, concat_app, edge_var_states_app. Qed.

Lemma logical_concatenate_spec starts0 t vsss :
  (forall vss, In vss vsss -> vss <> [] /\ logical_ok vss) ->
  (all_but_last_single vsss ->
     logical_concatenate_wirings (map (lw_ideal starts0 t) vsss) = Ok (lw_type starts0 t (concat vsss))) /\
  (~ all_but_last_single vsss ->
     logical_concatenate_wirings (map (lw_ideal starts0 t) vsss) = Raise ValueError).
Proof.
  intros Hok.
  assert (Hok' : forall vss, In vss vsss -> logical_ok vss) by (intros v Hv; now apply Hok).
  assert (Hne : forall vss, In vss vsss -> vss <> []) by (intros v Hv; now apply Hok).
  destruct vsss as [|v0 rest].
  { split; [reflexivity|]. intros H. exfalso. apply H. intros i Hi. simpl in Hi. lia. }
  set (vsss := v0 :: rest) in *.
  set (W := {| lw_edges_num_states := map snd (concat (concat vsss));
               lw_var_states_for_edges := edge_var_states starts0 (concat (concat vsss));
               lw_parents_edge_states := cat_parents (map (lw_ideal starts0 t) vsss);
               lw_children_edge_states := cat_children (map (lw_ideal starts0 t) vsss);
               lw_edge_states_offset := type_offset t |}).
  assert (E : logical_concatenate_wirings (map (lw_ideal starts0 t) vsss) = LogicalWiring W).
  { unfold W. rewrite <- concat_map_snd_vars, <- concat_edge_var_states.
    replace (map (fun vss => map snd (concat vss)) vsss) with (map lw_edges_num_states (map (lw_ideal starts0 t) vsss)) by (rewrite map_map; reflexivity).
    replace (map (fun vss => edge_var_states starts0 (concat vss)) vsss) with (map lw_var_states_for_edges (map (lw_ideal starts0 t) vsss)) by (rewrite map_map; reflexivity).
    reflexivity. }
  rewrite E. pose proof (LogicalWiring_spec W) as [S1 S2]. cbv zeta in S1.
  change (lw_children_edge_states W) with (cat_children (map (lw_ideal starts0 t) vsss)) in S1.
  change (lw_parents_edge_states W) with (cat_parents (map (lw_ideal starts0 t) vsss)) in S1.
  rewrite cat_children_length in S1.
  pose proof (fun x => cat_idx_In starts0 t vsss x Hok') as Hin.
  pose proof (has_distinct_keys _ _ Hin) as Hd. rewrite cat_keys_length in Hd.
  split.
  - intros Hs. destruct (cat_ideal starts0 t vsss Hok' Hs) as [EP EC].
    assert (EW : lw_type starts0 t (concat vsss) = W).
    { rewrite lw_type_ne; [unfold lw_ideal, W; now rewrite <- EP, <- EC|].
      intros Ec. assert (v0 <> []) by (apply Hne; now left). unfold vsss in Ec. simpl in Ec. destruct v0; [congruence|discriminate]. }
    rewrite EW. apply S1. split; [reflexivity|]. intros _.
    assert (EK : cat_keys vsss = map Z.of_nat (seq 0 (length (concat vsss)))).
    { destruct (exists_last' vsss) as [l [x El]]; [discriminate|]. rewrite El in Hs |- *.
      apply cat_keys_consecutive. exact (proj1 (all_but_last_snoc l x) Hs). }
    split; [|split].
    + apply Hd. rewrite EK. apply Znat_seq_NoDup.
    + intros i Hi. apply Hin in Hi. rewrite EK in Hi. apply in_map_iff in Hi. destruct Hi as [f [<- Hf]].
      apply in_seq in Hf. lia.
    + unfold W. cbn [lw_edge_states_offset]. destruct t; simpl; auto.
  - intros Hno. destruct (LogicalWiring W) as [w'|e] eqn:EW; [|f_equal; now apply S2].
    exfalso. apply Hno. destruct (proj1 (S1 w') eq_refl) as [_ H].
    assert (Hpos : 0 < length (concat vsss)).
    { assert (v0 <> []) by (apply Hne; now left). unfold vsss. simpl. rewrite app_length. destruct v0; [congruence|simpl; lia]. }
    destruct (H Hpos) as [H1 _]. apply Hd in H1. now apply cat_keys_dup.
Qed.

Lemma known_In starts0 (vss : list (list variable)) vsss : In vss vsss ->
  known starts0 (concat (concat vsss)) -> known starts0 (concat vss).
Proof.
  intros Hv Hk x Hx. apply Hk. apply in_concat in Hx. destruct Hx as [vs [H1 H2]].
  apply in_concat. exists vs. split; [|exact H2]. apply in_concat. eauto.
Qed.
Lemma known_concat starts0 vsss : (forall vss, In vss vsss -> known starts0 (concat vss)) ->
  known starts0 (concat (concat vsss)).
Proof.
  intros H x Hx. apply in_concat in Hx. destruct Hx as [vs [H1 H2]]. apply in_concat in H1.
  destruct H1 as [vss [H3 H4]]. apply (H vss H3). apply in_concat. eauto.
Qed.

Lemma logical_compile_all {A} junk starts0 t (gs : list (fgroup A)) :
  (forall g, In g gs -> fg_type g = t /\ logical_ok (fg_vars g)) ->
  known starts0 (concat (concat (map fg_vars gs))) ->
  mapM (fun g => fg_compile_logical junk g starts0) gs = Ok (map (lw_ideal starts0 t) (map fg_vars gs)).
Proof.
  intros Hok Hk. rewrite map_map. apply mapM_all. intros g Hg. destruct (Hok g Hg) as [Ht Hl].
  destruct (fg_compile_logical_spec junk g starts0) as [H _].
  { intros vs Hvs. destruct (Hl vs Hvs). lia. }
  rewrite H; [now rewrite Ht, lw_raw_ideal| |].
  - eapply known_In; [apply in_map, Hg|exact Hk].
  - intros vs Hvs. now destruct (Hl vs Hvs).
Qed.

Lemma logical_wirings_spec {A} junk starts0 t (gs : list (fgroup A)) :
  (forall g, In g gs -> fg_type g = t /\ fg_vars g <> [] /\ logical_ok (fg_vars g)) ->
  known starts0 (concat (concat (map fg_vars gs))) ->
  let r := ws <- mapM (fun g => fg_compile_logical junk g starts0) gs ;; logical_concatenate_wirings ws in
  (all_but_last_single (map fg_vars gs) -> r = Ok (lw_type starts0 t (concat (map fg_vars gs)))) /\
  (~ all_but_last_single (map fg_vars gs) -> r = Raise ValueError).
Proof.
  intros Hok Hk r. unfold r.
  rewrite (logical_compile_all junk starts0 t gs); [|intros g Hg; now destruct (Hok g Hg) as [? [? ?]]|exact Hk].
  cbn [bind]. apply logical_concatenate_spec. intros vss Hv. apply in_map_iff in Hv. destruct Hv as [g [<- Hg]].
  now destruct (Hok g Hg) as [? [? ?]].
Qed.

(** ** Wirings of a graph *)
Lemma wf_enum {A} (groups : per_type (list (fgroup A))) : wf_groups groups -> Forall arity_ok (pt_enum groups).
Proof.
  intros H. apply Forall_forall. intros g Hg. destruct (H TEnum g Hg) as [Ht [Hv Hne]].
  unfold valid_group in Hv. rewrite Ht in Hv. destruct Hv as [nc [_ Hl]].
  destruct (fg_vars g) as [|vs vss] eqn:E; [congruence|].
  exists nc, (length vs). split; [exact (proj1 (Hl vs (or_introl eq_refl)))|].
  rewrite E. intros ws Hws. destruct (Hl ws Hws) as [H1 _], (Hl vs (or_introl eq_refl)) as [H2 _]. congruence.
Qed.
Lemma wf_logical {A} (groups : per_type (list (fgroup A))) t : wf_groups groups -> t <> TEnum ->
  forall g, In g (pt_get t groups) -> fg_type g = t /\ fg_vars g <> [] /\ logical_ok (fg_vars g).
Proof.
  intros H Ht g Hg. destruct (H t g Hg) as [Et [Hv Hne]]. split; [exact Et|]. split; [exact Hne|].
  unfold valid_group in Hv. rewrite Et in Hv. destruct t; [congruence|exact Hv|exact Hv].
Qed.

Lemma In_all_groups {A} (groups : per_type (list (fgroup A))) g :
  In g (all_groups groups) <-> exists t, In g (pt_get t groups).
Proof.
  unfold all_groups. cbn [pt_values concat]. rewrite app_nil_r, !in_app_iff. split.
  - intros [H|[H|H]]; [exists TEnum|exists TOr|exists TAnd]; exact H.
  - intros [[]]; simpl; auto.
Qed.
Lemma known_groups_type {A} starts0 (groups : per_type (list (fgroup A))) t :
  known_groups starts0 groups -> known starts0 (concat (concat (map fg_vars (pt_get t groups)))).
Proof.
  intros H. apply known_concat. intros vss Hv. apply in_map_iff in Hv. destruct Hv as [g [<- Hg]].
  apply H, In_all_groups. eauto.
Qed.

Lemma compile_wirings_spec {A} junk starts0 (groups : per_type (list (fgroup A))) :
  wf_groups groups -> known_groups starts0 groups ->
  let singles t := all_but_last_single (map fg_vars (pt_get t groups)) in
  (Forall has_rows (pt_enum groups) -> singles TOr -> singles TAnd ->
     compile_wirings junk starts0 groups
     = Ok {| w_enum := ew_ideal starts0 (enum_factors groups);
             w_or := lw_type starts0 TOr (logical_factors TOr groups);
             w_and := lw_type starts0 TAnd (logical_factors TAnd groups) |}) /\
  (~ Forall has_rows (pt_enum groups) -> compile_wirings junk starts0 groups = Raise IndexError) /\
  (Forall has_rows (pt_enum groups) -> ~ (singles TOr /\ singles TAnd) ->
     compile_wirings junk starts0 groups = Raise ValueError).
Proof.
  intros Hwf Hk singles. unfold compile_wirings.
  destruct (enum_wirings_spec junk starts0 (pt_enum groups) (wf_enum _ Hwf)) as [E1 [E2 _]].
  assert (HkT : forall t, known starts0 (concat (concat (map fg_vars (pt_get t groups))))) by (intros t; now apply known_groups_type).
  specialize (E1 (HkT TEnum)). specialize (E2 (HkT TEnum)).
  assert (Hor : TOr <> TEnum) by discriminate. assert (Hand : TAnd <> TEnum) by discriminate.
  pose proof (wf_logical groups TOr Hwf Hor) as HO. pose proof (wf_logical groups TAnd Hwf Hand) as HA.
  cbn [pt_get] in HO, HA.
  destruct (mapM (fun g => fg_compile_enum junk g starts0) (pt_enum groups)) as [es|e] eqn:Ees.
  2: { exfalso. assert (Ha := Hk).
       destruct (mapM_raise _ _ _ Ees) as [g [Hg Eg]].
       destruct (fg_compile_enum_spec junk g starts0) as [Hc _].
       - pose proof (wf_enum _ Hwf) as Hf. rewrite Forall_forall in Hf. now apply Hf.
       - rewrite Hc in Eg; [discriminate|]. apply Hk, In_all_groups. now exists TEnum. }
  cbn [bind] in E1, E2 |- *.
  rewrite (logical_compile_all junk starts0 TOr (pt_or groups)); [|intros g Hg; now destruct (HO g Hg) as [? [? ?]]|exact (HkT TOr)].
  cbn [bind].
  rewrite (logical_compile_all junk starts0 TAnd (pt_and groups)); [|intros g Hg; now destruct (HA g Hg) as [? [? ?]]|exact (HkT TAnd)].
  cbn [bind].
  assert (CO : forall vss, In vss (map fg_vars (pt_or groups)) -> vss <> [] /\ logical_ok vss).
  { intros vss Hv. apply in_map_iff in Hv. destruct Hv as [g [<- Hg]]. now destruct (HO g Hg) as [? [? ?]]. }
  assert (CA : forall vss, In vss (map fg_vars (pt_and groups)) -> vss <> [] /\ logical_ok vss).
  { intros vss Hv. apply in_map_iff in Hv. destruct Hv as [g [<- Hg]]. now destruct (HA g Hg) as [? [? ?]]. }
  destruct (logical_concatenate_spec starts0 TOr _ CO) as [O1 O2].
  destruct (logical_concatenate_spec starts0 TAnd _ CA) as [A1 A2].
  assert (DEC : forall vsss : list (list (list variable)), {all_but_last_single vsss} + {~ all_but_last_single vsss}).
  { intros vsss. destruct (forallb (fun i => length (nth i vsss []) =? 1) (seq 0 (length vsss - 1))) eqn:F.
    - left. intros i Hi. rewrite forallb_forall in F. apply Nat.eqb_eq, F, in_seq. lia.
    - right. intros H. assert (F' : forallb (fun i => length (nth i vsss []) =? 1) (seq 0 (length vsss - 1)) = true); [|congruence].
      apply forallb_forall. intros i Hi. apply in_seq in Hi. apply Nat.eqb_eq, H. lia. }
  split; [|split].
  - intros Hr Ho Ha. rewrite (E1 Hr). cbn [bind]. rewrite (O1 Ho). cbn [bind]. rewrite (A1 Ha). reflexivity.
  - intros Hr. now rewrite (E2 Hr).
  - intros Hr Hno. rewrite (E1 Hr). cbn [bind].
    destruct (DEC (map fg_vars (pt_or groups))) as [Ho|Ho].
    + rewrite (O1 Ho). cbn [bind]. rewrite A2; [reflexivity|]. intros Ha. apply Hno. split; assumption.
    + now rewrite (O2 Ho).
Qed.

(** ** Independence from uninitialised memory *)
Lemma compile_wirings_junk {A} j1 j2 starts0 (groups : per_type (list (fgroup A))) :
  compile_wirings j1 starts0 groups = compile_wirings j2 starts0 groups.
Proof.
  unfold compile_wirings.
  rewrite (mapM_ext (fun g => fg_compile_enum j1 g starts0) (fun g => fg_compile_enum j2 g starts0)) by (intros; apply fg_compile_enum_junk).
  rewrite !(mapM_ext (fun g => fg_compile_logical j1 g starts0) (fun g => fg_compile_logical j2 g starts0)) by (intros; apply fg_compile_logical_junk).
  reflexivity.
Qed.
Lemma compile_fg_state_junk {A} j1 j2 (g : fgraph A) : compile_fg_state j1 g = compile_fg_state j2 g.
Proof. unfold compile_fg_state. now rewrite (compile_wirings_junk j1 j2). Qed.

(** ** Offsets *)
Lemma offsets_fold {A} (gs : list (fgroup A)) m c ms ps :
  let r := fold_left offsets_group_step gs ((m, c), (ms, ps)) in
  fst r = (m + total group_states gs, c + total group_pots gs) /\
  (NoDup (map fg_id gs) -> forall i g, nth_error gs i = Some g ->
     dget Z.eqb (fg_id g) (fst (snd r)) = Some (m + off (map group_states gs) i) /\
     dget Z.eqb (fg_id g) (snd (snd r)) = Some (c + off (map group_pots gs) i)) /\
  (forall k, ~ In k (map fg_id gs) ->
     dget Z.eqb k (fst (snd r)) = dget Z.eqb k ms /\ dget Z.eqb k (snd (snd r)) = dget Z.eqb k ps).
Proof.
  cbv zeta. unfold total. induction gs as [|g gs IH] using rev_ind.
  - simpl. split; [f_equal; lia|]. split; [|auto]. intros _ [|i] g H; discriminate.
  - rewrite fold_left_app. cbn [fold_left].
    destruct (fold_left offsets_group_step gs (m, c, (ms, ps))) as [[m1 c1] [ms1 ps1]] eqn:E.
    cbv zeta in IH. cbn [fst snd] in IH. destruct IH as [IH1 [IH2 IH3]]. injection IH1 as -> ->.
    unfold offsets_group_step. cbn [fst snd]. split; [|split].
    + rewrite !map_app, !list_sum_app. cbn [map list_sum fold_right].
      change (list_sum (fg_factor_edges_num_states g)) with (group_states g).
      change (length (fg_log_potentials g)) with (group_pots g). f_equal; lia.
    + intros Hnd i h Hi. rewrite map_app in Hnd. cbn [map] in Hnd.
      assert (Hlast : ~ In (fg_id g) (map fg_id gs)).
      { intros F. apply (NoDup_app_disjoint _ _ Hnd (fg_id g) F). now left. }
      apply NoDup_app_remove_r in Hnd.
      destruct (Nat.lt_ge_cases i (length gs)) as [Hlt|Hge].
      * rewrite nth_error_app1 in Hi by exact Hlt.
        assert (Hneq : fg_id h <> fg_id g).
        { intros F. apply Hlast. rewrite <- F. apply in_map. now apply nth_error_In in Hi. }
        rewrite !zget_dset_neq by exact Hneq.
        destruct (IH2 Hnd i h Hi) as [-> ->].
        rewrite !map_app, !off_app1 by (rewrite map_length; lia). auto.
      * rewrite nth_error_app2 in Hi by exact Hge.
        destruct (i - length gs) as [|j] eqn:Ej; [|destruct j; discriminate]. cbn [nth_error] in Hi. injection Hi as <-.
        rewrite !zget_dset_eq by reflexivity.
        assert (Ho : forall f : fgroup A -> nat, off (map f (gs ++ [g])) i = list_sum (map f gs)).
        { intros f. rewrite map_app. replace i with (length (map f gs) + 0) by (rewrite map_length; lia).
          rewrite off_app2, off_0. lia. }
        rewrite !Ho. auto.
    + intros k Hk. rewrite map_app, in_app_iff in Hk. cbn [map In] in Hk.
      assert (Hneq : k <> fg_id g) by (intros F; apply Hk; right; left; congruence).
      rewrite !zget_dset_neq by exact Hneq.
      apply IH3. tauto.
Qed.

Lemma compute_offsets_spec {A} (groups : per_type (list (fgroup A))) :
  let o := compute_offsets groups in
  (forall t, pt_get t (of_msgs_range o) =
     (type_start group_states t groups, type_start group_states t groups + total group_states (pt_get t groups))) /\
  (forall t, pt_get t (of_pots_range o) =
     (type_start group_pots t groups, type_start group_pots t groups + total group_pots (pt_get t groups))) /\
  of_total_states o = total group_states (all_groups groups) /\
  of_total_configs o = total group_pots (all_groups groups) /\
  (NoDup (map fg_id (all_groups groups)) -> forall i g, nth_error (all_groups groups) i = Some g ->
     dget Z.eqb (fg_id g) (of_group_msgs_starts o) = Some (total group_states (firstn i (all_groups groups))) /\
     dget Z.eqb (fg_id g) (of_group_pots_starts o) = Some (total group_pots (firstn i (all_groups groups)))) /\
  (forall k, ~ In k (map fg_id (all_groups groups)) ->
     dget Z.eqb k (of_group_msgs_starts o) = None /\ dget Z.eqb k (of_group_pots_starts o) = None).
Proof.
  unfold compute_offsets. cbv zeta.
  assert (E : fold_left offsets_group_step (pt_and groups)
       (fold_left offsets_group_step (pt_or groups) (fold_left offsets_group_step (pt_enum groups) (0, 0, ([], []))))
     = fold_left offsets_group_step (all_groups groups) (0, 0, ([], []))).
  { unfold all_groups. cbn [pt_values concat]. now rewrite app_nil_r, !fold_left_app. }
  rewrite E. clear E.
  destruct (offsets_fold (all_groups groups) 0 0 [] []) as [F1 [F2 F3]].
  destruct (offsets_fold (pt_enum groups) 0 0 [] []) as [E1 _].
  destruct (fold_left offsets_group_step (pt_enum groups) (0, 0, ([], []))) as [[m1 c1] [ms1 ps1]].
  cbn [fst] in E1. injection E1 as -> ->.
  destruct (offsets_fold (pt_or groups) (0 + total group_states (pt_enum groups)) (0 + total group_pots (pt_enum groups)) ms1 ps1) as [E2 _].
  destruct (fold_left offsets_group_step (pt_or groups) _) as [[m2 c2] [ms2 ps2]].
  cbn [fst] in E2. injection E2 as -> ->.
  assert (T : forall f : fgroup A -> nat, total f (all_groups groups) = total f (pt_enum groups) + total f (pt_or groups) + total f (pt_and groups)).
  { intros f. unfold total, all_groups. cbn [pt_values concat]. rewrite app_nil_r, !map_app, !list_sum_app. lia. }
  cbn [of_msgs_range of_pots_range of_total_states of_total_configs of_group_msgs_starts of_group_pots_starts].
  rewrite F1. cbn [fst snd]. rewrite !T. repeat apply conj.
  - intros []; simpl; f_equal; lia.
  - intros []; simpl; f_equal; lia.
  - lia.
  - lia.
  - intros Hnd i g Hi. destruct (F2 Hnd i g Hi) as [-> ->]. unfold total. rewrite <- !firstn_map. auto.
  - intros k Hk. destruct (F3 k Hk) as [-> ->]. auto.
Qed.

(** ** Identities of the groups of a reachable graph *)
Lemma distinct_concat_NoDup {A} (gs : list (fgroup A)) :
  (forall g, In g gs -> fg_vars g <> []) -> distinct_sets (concat (map fg_vars gs)) -> NoDup gs.
Proof.
  induction gs as [|g gs IH]; intros Hne Hd; [constructor|].
  cbn [map concat] in Hd. constructor.
  - intros Hin. destruct (fg_vars g) as [|vs rest] eqn:Ev; [now apply (Hne g (or_introl eq_refl))|].
    cbn [app] in Hd. inversion Hd as [|? ? H1 H2]; subst. rewrite Forall_forall in H1.
    apply (H1 vs); [|intros x; reflexivity]. apply in_or_app. right. apply in_concat. exists (fg_vars g).
    split; [now apply in_map|]. rewrite Ev. now left.
  - apply IH; [intros h Hh; apply Hne; now right|]. revert Hd. clear.
    induction (fg_vars g) as [|v l IH]; [auto|]. cbn [app]. intros H. inversion H; subst. auto.
Qed.
Lemma NoDup_app_intro {X} (a b : list X) : NoDup a -> NoDup b -> (forall x, In x a -> In x b -> False) -> NoDup (a ++ b).
Proof.
  induction a as [|x a IH]; intros Ha Hb Hd; [exact Hb|]. inversion Ha; subst. simpl. constructor.
  - rewrite in_app_iff. intros [F|F]; [auto|]. apply (Hd x); [now left|exact F].
  - apply IH; auto. intros y Hy. apply Hd. now right.
Qed.
Lemma NoDup_map_inj {X Y} (f : X -> Y) l : NoDup l -> (forall x y, In x l -> In y l -> f x = f y -> x = y) -> NoDup (map f l).
Proof.
  induction 1 as [|x l Hx Hn IH]; intros Hi; [constructor|]. simpl. constructor.
  - rewrite in_map_iff. intros [y [E Hy]]. rewrite (Hi y x) in Hy; auto; [now right|now left].
  - apply IH. intros a b Ha Hb. apply Hi; now right.
Qed.
Lemma reachable_ids {A} vgs (g : fgraph A) : reachable vgs g ->
  (forall h, In h (all_groups (gr_groups g)) -> fg_vars h <> []) ->
  (forall h h', In h (all_groups (gr_groups g)) -> In h' (all_groups (gr_groups g)) -> fg_id h = fg_id h' -> h = h') ->
  NoDup (map fg_id (all_groups (gr_groups g))).
Proof.
  intros Hr Hne Hid. apply NoDup_map_inj; [|exact Hid].
  assert (HT : forall t, NoDup (pt_get t (gr_groups g)) /\ forall h, In h (pt_get t (gr_groups g)) -> fg_type h = t).
  { intros t. destruct (C16_lemma vgs g Hr t) as [H1 H2]. split; [|exact H2]. apply distinct_concat_NoDup; [|exact H1].
    intros h Hh. apply Hne, In_all_groups. eauto. }
  destruct (HT TEnum) as [N1 T1], (HT TOr) as [N2 T2], (HT TAnd) as [N3 T3]. cbn [pt_get] in *.
  unfold all_groups. cbn [pt_values concat]. rewrite app_nil_r.
  repeat apply NoDup_app_intro; auto.
  - intros x Hx Hy. apply T2 in Hx. apply T3 in Hy. congruence.
  - intros x Hx Hy. apply T1 in Hx. apply in_app_iff in Hy. destruct Hy as [Hy|Hy]; [apply T2 in Hy|apply T3 in Hy]; congruence.
Qed.

(** ** Successful compilations *)
Lemma mapM_Ok_In {X Y} (f : X -> res Y) l ys x : mapM f l = Ok ys -> In x l -> exists y, f x = Ok y.
Proof.
  intros H Hx. apply mapM_Ok in H. induction H as [|a b l ys Hab H IH]; [destruct Hx|].
  destruct Hx as [<-|Hx]; eauto.
Qed.
Lemma compile_wirings_known {A} junk starts0 (groups : per_type (list (fgroup A))) w :
  compile_wirings junk starts0 groups = Ok w -> known_groups starts0 groups.
Proof.
  unfold compile_wirings. intros H.
  destruct (mapM _ (pt_enum groups)) as [es|] eqn:E1; cbn [bind] in H; [|discriminate].
  destruct (mapM _ (pt_or groups)) as [os|] eqn:E2; cbn [bind] in H; [|discriminate].
  destruct (mapM _ (pt_and groups)) as [ds|] eqn:E3; cbn [bind] in H; [|discriminate].
  intros g Hg. apply In_all_groups in Hg. destruct Hg as [t Hg].
  assert (HL : forall u, fg_compile_logical junk g starts0 = Ok u -> known starts0 (concat (fg_vars g))).
  { intros u Hu. destruct (known_dec starts0 (concat (fg_vars g))) as [|Hn]; [assumption|].
    destruct (fg_compile_logical_raw junk g starts0) as [_ K]. rewrite (K Hn) in Hu. discriminate. }
  destruct t; cbn [pt_get] in Hg.
  - destruct (mapM_Ok_In _ _ _ g E1 Hg) as [u Hu].
    unfold fg_compile_enum, enum_compile_wiring in Hu.
    destruct (lookup_var_states_spec starts0 (fg_vars g)) as [[Hk _]|[_ E]]; [exact Hk|]. rewrite E in Hu. discriminate.
  - destruct (mapM_Ok_In _ _ _ g E2 Hg) as [u Hu]. eauto.
  - destruct (mapM_Ok_In _ _ _ g E3 Hg) as [u Hu]. eauto.
Qed.

Lemma has_rows_dec {A} (gs : list (fgroup A)) : {Forall has_rows gs} + {~ Forall has_rows gs}.
Proof.
  apply Forall_dec. intros g. unfold has_rows. destruct (fg_vars g); [right; intros [H _]; congruence|].
  destruct (lt_dec 0 (nth 0 (shape (fg_configs g)) 0)); [|right; tauto].
  destruct (lt_dec 0 (nth 1 (shape (fg_configs g)) 0)); [|right; tauto].
  left. split; [discriminate|auto].
Qed.
Lemma abls_dec (vsss : list (list (list variable))) : {all_but_last_single vsss} + {~ all_but_last_single vsss}.
Proof.
  destruct (forallb (fun i => length (nth i vsss []) =? 1) (seq 0 (length vsss - 1))) eqn:F.
  - left. intros i Hi. rewrite forallb_forall in F. apply Nat.eqb_eq, F, in_seq. lia.
  - right. intros H. assert (F' : forallb (fun i => length (nth i vsss []) =? 1) (seq 0 (length vsss - 1)) = true); [|congruence].
    apply forallb_forall. intros i Hi. apply in_seq in Hi. apply Nat.eqb_eq, H. lia.
Qed.

(** Graphs that compile. *)
Lemma compile_wirings_iff {A} junk starts0 (groups : per_type (list (fgroup A))) w :
  wf_groups groups ->
  (compile_wirings junk starts0 groups = Ok w <->
   known_groups starts0 groups /\ Forall has_rows (pt_enum groups) /\
   all_but_last_single (map fg_vars (pt_or groups)) /\ all_but_last_single (map fg_vars (pt_and groups)) /\
   w = {| w_enum := ew_ideal starts0 (enum_factors groups);
          w_or := lw_type starts0 TOr (logical_factors TOr groups);
          w_and := lw_type starts0 TAnd (logical_factors TAnd groups) |}).
Proof.
  intros Hwf. split.
  - intros H. assert (Hk := compile_wirings_known _ _ _ _ H). split; [exact Hk|].
    destruct (compile_wirings_spec junk starts0 groups Hwf Hk) as [S1 [S2 S3]]. cbn [pt_get] in S1, S3.
    destruct (has_rows_dec (pt_enum groups)) as [Hr|Hr]; [|rewrite (S2 Hr) in H; discriminate].
    destruct (abls_dec (map fg_vars (pt_or groups))) as [Ho|Ho]; [|rewrite S3 in H; [discriminate|exact Hr|tauto]].
    destruct (abls_dec (map fg_vars (pt_and groups))) as [Ha|Ha]; [|rewrite S3 in H; [discriminate|exact Hr|tauto]].
    rewrite (S1 Hr Ho Ha) in H. injection H as <-. auto.
  - intros [Hk [Hr [Ho [Ha ->]]]]. destruct (compile_wirings_spec junk starts0 groups Hwf Hk) as [S1 _]. now apply S1.
Qed.

(** ** C11, C20: what the group constructors do not check *)
Lemma C11_group_lemma {A} junk (g : fgroup A) starts0 w :
  fg_compile_logical junk g starts0 = Ok w ->
  lw_edges_num_states w = map snd (concat (fg_vars g)) /\
  length (lw_var_states_for_edges w) = 2 * length (concat (fg_vars g)).
Proof.
  intros H. destruct (fg_compile_logical_raw junk g starts0) as [H1 H2].
  destruct (known_dec starts0 (concat (fg_vars g))) as [Hk|Hk]; [|rewrite (H2 Hk) in H; discriminate].
  rewrite (H1 Hk) in H. pose proof (LogicalWiring_spec (lw_raw starts0 (fg_type g) (fg_vars g))) as [S1 _].
  apply S1 in H. destruct H as [-> _]. split; [reflexivity|]. apply edge_var_states_2_length.
Qed.
Lemma C11_accept_lemma {A} junk t id vars starts0 :
  vars <> [] -> known starts0 (concat vars) -> (forall vs, In vs vars -> 2 <= length vs) ->
  exists (g : fgroup A) w, LogicalFactorGroup t id vars = Ok g /\ fg_compile_logical junk g starts0 = Ok w /\
    lw_edges_num_states w = map snd (concat vars) /\
    length (lw_var_states_for_edges w) = 2 * length (concat vars).
Proof.
  intros Hne Hk H2. destruct vars as [|v0 r]; [congruence|]. unfold LogicalFactorGroup.
  set (g := {| fg_id := id; fg_kind := KLogical; fg_type := t; fg_vars := v0 :: r; fg_configs := mkArr [] []; fg_log_potentials := [] |} : fgroup A).
  destruct (fg_compile_logical_spec junk g starts0) as [S1 _].
  { intros vs Hvs. specialize (H2 vs Hvs). lia. }
  exists g, (lw_raw starts0 (fg_type g) (fg_vars g)). split; [reflexivity|].
  assert (E := S1 Hk H2). split; [exact E|]. exact (C11_group_lemma junk g starts0 _ E).
Qed.

Lemma fg_compile_enum_raw {A} junk (g : fgroup A) starts0 nc k :
  shape (fg_configs g) = [nc; k] -> known starts0 (concat (fg_vars g)) ->
  (length (concat (fg_vars g)) = length (fg_vars g) * k ->
     fg_compile_enum junk g starts0 = Ok {| ew_edges_num_states := map snd (concat (fg_vars g));
       ew_var_states_for_edges := edge_var_states starts0 (concat (fg_vars g));
       ew_factor_configs_edge_states := rows_by_position g nc k |}) /\
  (length (concat (fg_vars g)) <> length (fg_vars g) * k -> fg_compile_enum junk g starts0 = Raise ValueError).
Proof.
  intros Hs Hk. unfold fg_compile_enum, enum_compile_wiring, fg_factor_edges_num_states, fg_num_factors.
  destruct (lookup_var_states_spec starts0 (fg_vars g)) as [[Hn ->]|[Hn _]]; [|contradiction]. cbn [bind].
  rewrite Hs. cbn [length nth Nat.eqb negb]. rewrite map_length.
  destruct (Nat.eqb_spec (length (concat (fg_vars g))) (length (fg_vars g) * k)) as [E|E]; cbn [negb]; (split; [|congruence || reflexivity]); [|contradiction].
  intros _. f_equal. f_equal.
  - rewrite last_cumsum0. apply compile_var_states_edges.
  - rewrite (compile_enumeration_spec junk _ nc k) by exact Hs. unfold rows_by_position.
    rewrite flat_map_concat_map. f_equal. apply map_ext_in. intros f Hf. apply in_seq in Hf.
    rewrite flat_map_concat_map. f_equal. apply map_ext. intros c.
    apply map_ext_in. intros u Hu. apply in_seq in Hu. rewrite nth_cumsum0; [reflexivity|].
    rewrite map_length. nia.
Qed.

(** ** Potentials of the factors *)
Lemma map_combine_seq {X Y} (f : nat -> X -> Y) l a d :
  map (fun iv => f (fst iv) (snd iv)) (combine (seq a (length l)) l) = map (fun i => f (a + i) (nth i l d)) (seq 0 (length l)).
Proof.
  revert a. induction l as [|x l IH]; intros a; [reflexivity|]. cbn [length seq combine map fst snd nth]. f_equal.
  - f_equal. lia.
  - rewrite IH, <- seq_shift, map_map. apply map_ext. intros i. cbn [nth]. f_equal. lia.
Qed.

Lemma enum_pots_factors {A} (g : fgroup A) : fg_type g = TEnum -> valid_group g -> fg_vars g <> [] ->
  concat (map sf_pots (group_factors g)) = fg_log_potentials g.
Proof.
  intros Ht Hv Hne. unfold valid_group in Hv. rewrite Ht in Hv. destruct Hv as [nc [Hl Hv]].
  destruct (fg_vars g) as [|v0 r] eqn:Ev; [congruence|]. rewrite <- Ev in *.
  assert (Hs : nth 0 (shape (fg_configs g)) 0 = nc).
  { destruct (Hv v0) as [-> _]; [rewrite Ev; now left|reflexivity]. }
  rewrite <- (concat_rows (length (fg_vars g)) nc (fg_log_potentials g)) at 1 by exact Hl. f_equal.
  unfold group_factors. rewrite Hs, map_map. cbn [sf_pots].
  rewrite (map_combine_seq (fun i _ => slice (fg_log_potentials g) (i * nc) (i * nc + nc)) _ 0 []).
  apply (nth_ext _ _ [] []); [now rewrite map_length, seq_length, rows_length|].
  intros i Hi. rewrite map_length, seq_length in Hi. rewrite nth_map_seq, nth_rows by exact Hi. reflexivity.
Qed.

Lemma enum_pots_all {A} (groups : per_type (list (fgroup A))) : wf_groups groups ->
  pt_enum (compile_log_potentials groups) = concat (map sf_pots (enum_factors groups)).
Proof.
  intros Hwf. unfold compile_log_potentials, enum_factors. cbn [pt_enum].
  assert (H : forall g, In g (pt_enum groups) -> concat (map sf_pots (group_factors g)) = fg_log_potentials g).
  { intros g Hg. destruct (Hwf TEnum g Hg) as [H1 [H2 H3]]. now apply enum_pots_factors. }
  induction (pt_enum groups) as [|g l IH]; [reflexivity|].
  cbn [map flat_map concat]. rewrite map_app, concat_app, <- IH by (intros h Hh; apply H; now right).
  now rewrite (H g (or_introl eq_refl)).
Qed.

(** ** C22: factors added one by one *)
Lemma list_ext_any {A} (xs ys : list A) : length xs = length ys ->
  (forall c d, c < length xs -> nth c xs d = nth c ys d) -> xs = ys.
Proof.
  intros Hl H. destruct xs as [|d xs]; [destruct ys; [reflexivity|discriminate]|].
  apply (nth_ext _ _ d d); [exact Hl|]. intros n Hn. now apply H.
Qed.
Lemma single_factors {A} (g : fgroup A) i id f :
  fg_type g = TEnum -> valid_group g -> is_factor g i f ->
  group_factors (SingleFactorGroup id f) = [nth i (group_factors g) (SF [] [] [])] /\
  i < length (fg_vars g).
Proof.
  intros Ht Hval Hf. unfold is_factor in Hf. rewrite Ht in Hf. destruct f as [e|l]; [|destruct Hf].
  destruct Hf as [Hv [Hc [Hl Hp]]].
  assert (Hi : i < length (fg_vars g)) by (apply nth_error_Some; congruence). split; [|exact Hi].
  unfold valid_group in Hval. rewrite Ht in Hval. destruct Hval as [nc' [Hlen Hval]].
  assert (Enc : nth 0 (shape (fg_configs g)) 0 = nc').
  { apply nth_error_In in Hv. destruct (Hval _ Hv) as [-> _]. reflexivity. }
  unfold SingleFactorGroup. unfold group_factors at 1. cbn [fg_vars fg_configs fg_log_potentials length seq combine map fst snd].
  f_equal. unfold group_factors.
  rewrite (map_combine_seq (fun i vs => SF vs (config_rows (fg_configs g))
     (slice (fg_log_potentials g) (i * nth 0 (shape (fg_configs g)) 0) (i * nth 0 (shape (fg_configs g)) 0 + nth 0 (shape (fg_configs g)) 0))) _ 0 []).
  rewrite nth_map_seq by exact Hi. rewrite Hc. rewrite Enc in *. clear Enc. f_equal.
  - symmetry. now apply nth_error_nth.
  - cbn [Nat.mul Nat.add]. rewrite <- Hl at 1. rewrite slice_all.
    apply list_ext_any; [rewrite slice_length, Hlen; nia|].
    intros c d Hlt. rewrite nth_slice by lia. apply Hp. lia.
Qed.

Lemma singles_enum {A} (g : fgroup A) ids fs :
  fg_type g = TEnum -> valid_group g -> length fs = length (fg_vars g) -> length ids = length fs ->
  (forall i f, nth_error fs i = Some f -> is_factor g i f) ->
  flat_map group_factors (map2 SingleFactorGroup ids fs) = group_factors g.
Proof.
  intros Ht Hv Hl Hids HP.
  assert (E : map2 SingleFactorGroup ids fs =
              map (fun i => SingleFactorGroup (nth i ids 0%Z) (nth i fs (FLogical {| lf_type := TOr; lf_variables := [] |}))) (seq 0 (length fs))).
  { clear -Hids. revert ids Hids. induction fs as [|f fs IH]; intros [|x ids] H; try discriminate; [reflexivity|].
    cbn [map2 length seq map nth]. f_equal. rewrite IH by (simpl in H; lia). rewrite <- seq_shift, map_map. reflexivity. }
  rewrite E, flat_map_map.
  transitivity (flat_map (fun i => [nth i (group_factors g) (SF [] [] [])]) (seq 0 (length fs))).
  - apply flat_map_ext_In. intros i Hi. apply in_seq in Hi. apply single_factors; auto. apply HP. apply nth_error_nth'. lia.
  - rewrite Hl, <- group_factors_length. clear. generalize (group_factors g). intros l.
    transitivity (map (fun i => nth i l (SF [] [] [])) (seq 0 (length l))).
    + induction (seq 0 (length l)) as [|x r IH]; [reflexivity|]. simpl. now rewrite IH.
    + apply (nth_ext _ _ (SF [] [] []) (SF [] [] [])); [now rewrite map_length, seq_length|].
      intros n Hn. rewrite map_length, seq_length in Hn. now rewrite nth_map_seq.
Qed.

Lemma singles_logical {A} (g : fgroup A) ids fs :
  fg_type g <> TEnum -> length fs = length (fg_vars g) -> length ids = length fs ->
  (forall i f, nth_error fs i = Some f -> is_factor g i f) ->
  map fg_vars (map2 SingleFactorGroup ids fs) = map (fun vs => [vs]) (fg_vars g) /\
  (forall h, In h (map2 SingleFactorGroup ids fs) -> fg_type h = fg_type g /\ fg_log_potentials h = []).
Proof.
  intros Ht Hl Hids HP.
  assert (HP' : forall i f, nth_error fs i = Some f -> exists l, f = FLogical l /\ lf_type l = fg_type g /\ nth_error (fg_vars g) i = Some (lf_variables l)).
  { intros i f Hi. specialize (HP i f Hi). unfold is_factor in HP. destruct (fg_type g); [congruence| |]; destruct f as [e|l]; try destruct HP; exists l; auto. }
  clear HP. revert HP' Hl Hids. generalize (fg_vars g) as vs. revert ids.
  induction fs as [|f fs IH]; intros ids vs HP Hl Hids.
  - destruct vs; [|discriminate]. destruct ids; [|discriminate]. split; [reflexivity|intros h []].
  - destruct vs as [|v vs]; [discriminate|]. destruct ids as [|x ids]; [discriminate|].
    destruct (IH ids vs) as [I1 I2]; [intros i f' Hi; exact (HP (S i) f' Hi)|simpl in Hl; lia|simpl in Hids; lia|].
    destruct (HP 0 f eq_refl) as [l [-> [H1 H2]]]. cbn [nth_error] in H2. injection H2 as ->.
    cbn [map2 map]. rewrite I1. split; [reflexivity|]. intros h [<-|Hh]; [|now apply I2]. split; [exact H1|reflexivity].
Qed.

Lemma abls_singletons (vss : list (list variable)) : all_but_last_single (map (fun vs => [vs]) vss).
Proof. intros i Hi. rewrite map_length in Hi. rewrite (nth_map _ _ _ _ []) by lia. reflexivity. Qed.
Lemma concat_singletons {X} (l : list X) : concat (map (fun x => [x]) l) = l.
Proof. induction l as [|x l IH]; [reflexivity|]. simpl. now rewrite IH. Qed.

Lemma single_group_fields {A} (g : fgroup A) i id f : fg_type g = TEnum -> is_factor g i f ->
  let s := SingleFactorGroup id f in
  fg_type s = TEnum /\ fg_configs s = fg_configs g /\ exists vs, fg_vars s = [vs] /\ In vs (fg_vars g).
Proof.
  intros Ht Hf s. unfold is_factor in Hf. rewrite Ht in Hf. destruct f as [e|l]; [|destruct Hf].
  destruct Hf as [Hv [Hc _]]. split; [reflexivity|]. split; [exact Hc|]. exists (ef_variables e).
  split; [reflexivity|]. eapply nth_error_In; exact Hv.
Qed.

Lemma In_map2 {X Y W} (f : X -> Y -> W) xs ys z : In z (map2 f xs ys) ->
  exists i x y, nth_error xs i = Some x /\ nth_error ys i = Some y /\ z = f x y.
Proof.
  revert ys. induction xs as [|x xs IH]; intros [|y ys] H; try destruct H.
  - exists 0, x, y. auto.
  - destruct (IH ys H) as [i [x' [y' [H1 [H2 H3]]]]]. exists (S i), x', y'. auto.
Qed.

Lemma C22_enum_lemma {A} j1 j2 starts0 (g : fgroup A) fs ids :
  fg_type g = TEnum -> valid_group g -> fg_vars g <> [] -> distinct_sets (fg_vars g) ->
  known starts0 (concat (fg_vars g)) -> fg_factors g = Ok fs -> length ids = length fs ->
  compile_all_enum j1 starts0 (map2 SingleFactorGroup ids fs) = compile_all_enum j2 starts0 [g] /\
  concat (map fg_log_potentials (map2 SingleFactorGroup ids fs)) = fg_log_potentials g.
Proof.
  intros Ht Hv Hne Hd Hk Hfs Hids.
  destruct (fg_factors_valid g Hv Hd) as [fs' [E [Hl HP]]]. rewrite Hfs in E. injection E as <-.
  set (S := map2 SingleFactorGroup ids fs).
  assert (HS : forall h, In h S -> fg_type h = TEnum /\ fg_configs h = fg_configs g /\ exists vs, fg_vars h = [vs] /\ In vs (fg_vars g)).
  { intros h Hh. apply In_map2 in Hh. destruct Hh as [i [x [f [H1 [H2 ->]]]]].
    apply (single_group_fields g i); [exact Ht|now apply HP]. }
  assert (EF : flat_map group_factors S = group_factors g) by (apply singles_enum; auto).
  assert (EV : concat (map fg_vars S) = fg_vars g).
  { rewrite <- (group_factors_vars g), <- EF. clear. induction S as [|s l IH]; [reflexivity|].
    cbn [map concat flat_map]. now rewrite map_app, IH, group_factors_vars. }
  assert (Hv' := Hv). unfold valid_group in Hv'. rewrite Ht in Hv'. destruct Hv' as [nc [Hlen Hleg]].
  assert (Hne' : exists v0 r, fg_vars g = v0 :: r) by (destruct (fg_vars g); [congruence|eauto]).
  destruct Hne' as [v0 [r Ev]].
  assert (Hsh : shape (fg_configs g) = [nc; length v0]) by (destruct (Hleg v0) as [Es _]; [rewrite Ev; now left|exact Es]).
  assert (HAr : forall vs, In vs (fg_vars g) -> length vs = length v0).
  { intros vs Hvs. destruct (Hleg vs Hvs) as [Es _]. rewrite Hsh in Es. congruence. }
  assert (HA1 : Forall arity_ok [g]).
  { constructor; [|constructor]. exists nc, (length v0). auto. }
  assert (HA2 : Forall arity_ok S).
  { apply Forall_forall. intros h Hh. destruct (HS h Hh) as [_ [Ec [vs [Evs Hin]]]].
    exists nc, (length v0). rewrite Ec. split; [exact Hsh|]. rewrite Evs. intros ws [<-|[]]. now apply HAr. }
  assert (HSne : S <> []) by (intros F; rewrite F in EV; cbn in EV; congruence).
  split.
  - destruct (enum_wirings_spec j1 starts0 S HA2) as [S1 [S2 _]].
    destruct (enum_wirings_spec j2 starts0 [g] HA1) as [G1 [G2 _]].
    unfold compile_all_enum. rewrite EV in S1, S2. cbn [map concat flat_map] in G1, G2. rewrite !app_nil_r in G1, G2.
    destruct (has_rows_dec [g]) as [Hr|Hr].
    + rewrite (G1 Hk Hr), app_nil_r, S1, EF; [reflexivity|exact Hk|].
      apply Forall_forall. intros h Hh. destruct (HS h Hh) as [_ [Ec [vs [Evs _]]]].
      inversion Hr as [|? ? [_ Hr'] _]; subst. unfold has_rows. rewrite Ec, Evs. split; [discriminate|exact Hr'].
    + rewrite (G2 Hk Hr), S2; [reflexivity|exact Hk|]. intros F. apply Hr. constructor; [|constructor].
      destruct S as [|h l]; [congruence|]. inversion F as [|? ? [_ F'] _]; subst.
      destruct (HS h (or_introl eq_refl)) as [_ [Ec _]]. rewrite Ec in F'. split; [exact Hne|exact F'].
  - rewrite <- (enum_pots_factors g Ht Hv Hne), <- EF.
    assert (HSp : forall h, In h S -> concat (map sf_pots (group_factors h)) = fg_log_potentials h).
    { intros h Hh. destruct (HS h Hh) as [Ht' [Ec [vs [Evs Hin]]]]. apply enum_pots_factors; [exact Ht'| |rewrite Evs; discriminate].
      unfold valid_group. rewrite Ht'. exists nc. rewrite Evs, Ec. split.
      - apply In_map2 in Hh. destruct Hh as [i [x [f [H1 [H2 ->]]]]]. specialize (HP i f H2).
        unfold is_factor in HP. rewrite Ht in HP. destruct f as [e|]; [|destruct HP]. destruct HP as [_ [_ [HP _]]].
        rewrite Hsh in HP. cbn [nth] in HP. cbn [length SingleFactorGroup fg_log_potentials]. lia.
      - intros ws [<-|[]]. now apply Hleg. }
    clear -HSp. induction S as [|s l IH]; [reflexivity|]. cbn [map concat flat_map].
    rewrite map_app, concat_app, <- IH by (intros h Hh; apply HSp; now right). now rewrite (HSp s (or_introl eq_refl)).
Qed.

Lemma C22_logical_lemma {A} j1 j2 starts0 (g : fgroup A) fs ids :
  fg_type g <> TEnum -> valid_group g -> fg_vars g <> [] -> distinct_sets (fg_vars g) ->
  known starts0 (concat (fg_vars g)) -> fg_factors g = Ok fs -> length ids = length fs ->
  exists w, compile_all_logical j1 starts0 (map2 SingleFactorGroup ids fs) = Ok w /\
            compile_all_logical j2 starts0 [g] = Ok w /\
            concat (map fg_log_potentials (map2 SingleFactorGroup ids fs)) = [].
Proof.
  intros Ht Hv Hne Hd Hk Hfs Hids.
  destruct (fg_factors_valid g Hv Hd) as [fs' [E [Hl HP]]]. rewrite Hfs in E. injection E as <-.
  destruct (singles_logical g ids fs Ht Hl Hids HP) as [EV HS].
  assert (Hlog : logical_ok (fg_vars g)).
  { unfold valid_group in Hv. destruct (fg_type g); [congruence|exact Hv|exact Hv]. }
  exists (lw_type starts0 (fg_type g) (fg_vars g)). split; [|split].
  - destruct (logical_wirings_spec j1 starts0 (fg_type g) (map2 SingleFactorGroup ids fs)) as [S1 _].
    + intros h Hh. destruct (HS h Hh) as [Eh _]. split; [exact Eh|].
      assert (Hin : In (fg_vars h) (map fg_vars (map2 SingleFactorGroup ids fs))) by now apply in_map.
      rewrite EV in Hin. apply in_map_iff in Hin. destruct Hin as [vs [Evs Hvs]]. rewrite <- Evs.
      split; [discriminate|]. intros ws [<-|[]]. now apply Hlog.
    + rewrite EV, concat_singletons. exact Hk.
    + rewrite EV, concat_singletons in S1. apply S1, abls_singletons.
  - destruct (logical_wirings_spec j2 starts0 (fg_type g) [g]) as [S1 _].
    + intros h [<-|[]]. auto.
    + cbn [map concat]. now rewrite app_nil_r.
    + cbn [map concat] in S1. rewrite app_nil_r in S1. apply S1. intros i Hi. simpl in Hi. lia.
  - assert (H : forall h, In h (map2 SingleFactorGroup ids fs) -> fg_log_potentials h = []) by (intros h Hh; now apply HS).
    revert H. clear. induction (map2 SingleFactorGroup ids fs) as [|h l IH]; intros H; [reflexivity|].
    cbn [map concat]. rewrite (H h (or_introl eq_refl)), IH by (intros x Hx; apply H; now right). reflexivity.
Qed.

Lemma C22_factors_lemma {A} j1 j2 starts0 (groups groups' : per_type (list (fgroup A))) :
  wf_groups groups -> wf_groups groups' ->
  enum_factors groups = enum_factors groups' ->
  logical_factors TOr groups = logical_factors TOr groups' ->
  logical_factors TAnd groups = logical_factors TAnd groups' ->
  pt_enum (compile_log_potentials groups) = pt_enum (compile_log_potentials groups') /\
  (forall w w', compile_wirings j1 starts0 groups = Ok w -> compile_wirings j2 starts0 groups' = Ok w' -> w = w').
Proof.
  intros H1 H2 E1 E2 E3. split.
  - rewrite !enum_pots_all by assumption. now rewrite E1.
  - intros w w' Hw Hw'. apply compile_wirings_iff in Hw; [|exact H1]. apply compile_wirings_iff in Hw'; [|exact H2].
    destruct Hw as [_ [_ [_ [_ ->]]]], Hw' as [_ [_ [_ [_ ->]]]]. now rewrite E1, E2, E3.
Qed.

(** ** C18 *)
Lemma slice_app_mid {X} (a b c : list X) : slice (a ++ b ++ c) (length a) (length a + length b) = b.
Proof.
  unfold slice. rewrite skipn_app, skipn_all, Nat.sub_diag. cbn [app skipn].
  replace (length a + length b - length a) with (length b) by lia. rewrite firstn_app, Nat.sub_diag, firstn_all.
  cbn [firstn]. apply app_nil_r.
Qed.
Lemma total_length_concat {A} (gs : list (fgroup A)) : length (concat (map fg_log_potentials gs)) = total group_pots gs.
Proof. unfold total. rewrite concat_length, map_map. reflexivity. Qed.
Lemma flat_pots_all {A} (groups : per_type (list (fgroup A))) :
  concat (pt_values (compile_log_potentials groups)) = concat (map fg_log_potentials (all_groups groups)).
Proof.
  unfold compile_log_potentials, all_groups, pt_values. cbn [pt_enum pt_or pt_and concat].
  rewrite !app_nil_r, !map_app, !concat_app. reflexivity.
Qed.
Lemma slice_group {A} (gs : list (fgroup A)) i g : nth_error gs i = Some g ->
  slice (concat (map fg_log_potentials gs)) (total group_pots (firstn i gs)) (total group_pots (firstn i gs) + group_pots g)
  = fg_log_potentials g.
Proof.
  intros H. apply nth_error_split in H. destruct H as [l1 [l2 [-> <-]]].
  rewrite firstn_app, firstn_all, Nat.sub_diag. cbn [firstn]. rewrite app_nil_r, map_app, concat_app.
  cbn [map concat]. rewrite <- total_length_concat. apply slice_app_mid.
Qed.

Lemma total_app {X} (f : X -> nat) a b : total f (a ++ b) = total f a + total f b.
Proof. unfold total. now rewrite map_app, list_sum_app. Qed.

Lemma slice_type {A} (groups : per_type (list (fgroup A))) t :
  slice (concat (pt_values (compile_log_potentials groups)))
    (type_start group_pots t groups) (type_start group_pots t groups + total group_pots (pt_get t groups))
  = concat (map fg_log_potentials (pt_get t groups)).
Proof.
  unfold compile_log_potentials, pt_values. cbn [pt_enum pt_or pt_and concat]. rewrite app_nil_r.
  rewrite <- total_length_concat. destruct t; cbn [type_start pt_get].
  - apply (slice_app_mid []).
  - rewrite <- (total_length_concat (pt_enum groups)). apply slice_app_mid.
  - rewrite <- (total_length_concat (pt_enum groups)), <- (total_length_concat (pt_or groups)), <- app_length.
    rewrite app_assoc. rewrite <- (app_nil_r (concat (map fg_log_potentials (pt_and groups)))) at 1. apply slice_app_mid.
Qed.

Lemma firstn_type_bounds {A} (f : fgroup A -> nat) (groups : per_type (list (fgroup A))) t g :
  In g (pt_get t groups) -> exists i, nth_error (all_groups groups) i = Some g /\
    type_start f t groups <= total f (firstn i (all_groups groups)) /\
    total f (firstn i (all_groups groups)) + f g <= type_start f t groups + total f (pt_get t groups).
Proof.
  intros Hg. apply In_nth_error in Hg. destruct Hg as [j Hj].
  assert (Hlt : j < length (pt_get t groups)) by (apply nth_error_Some; congruence).
  assert (Hb : total f (firstn j (pt_get t groups)) + f g <= total f (pt_get t groups)).
  { apply nth_error_split in Hj. destruct Hj as [l1 [l2 [-> <-]]].
    rewrite firstn_app, firstn_all, Nat.sub_diag. cbn [firstn]. rewrite app_nil_r, total_app.
    unfold total at 2 3. cbn [map]. change (list_sum (f g :: map f l2)) with (f g + list_sum (map f l2)). unfold total. lia. }
  unfold all_groups. cbn [pt_values concat]. rewrite app_nil_r.
  destruct t; cbn [pt_get type_start] in *.
  - exists j. rewrite nth_error_app1 by exact Hlt. split; [exact Hj|]. rewrite firstn_app.
    replace (j - length (pt_enum groups)) with 0 by lia. cbn [firstn]. rewrite app_nil_r. lia.
  - exists (length (pt_enum groups) + j). rewrite nth_error_app2 by lia.
    replace (length (pt_enum groups) + j - length (pt_enum groups)) with j by lia.
    rewrite nth_error_app1 by exact Hlt. split; [exact Hj|].
    rewrite firstn_app_2, firstn_app. replace (j - length (pt_or groups)) with 0 by lia. cbn [firstn].
    rewrite app_nil_r, total_app. lia.
  - exists (length (pt_enum groups) + (length (pt_or groups) + j)). rewrite nth_error_app2 by lia.
    replace (length (pt_enum groups) + (length (pt_or groups) + j) - length (pt_enum groups)) with (length (pt_or groups) + j) by lia.
    rewrite nth_error_app2 by lia. replace (length (pt_or groups) + j - length (pt_or groups)) with j by lia.
    split; [exact Hj|]. rewrite !firstn_app_2, !total_app. lia.
Qed.

Lemma firstn_disjoint {X} (f : X -> nat) l i j x y : nth_error l i = Some x -> nth_error l j = Some y -> i < j ->
  total f (firstn i l) + f x <= total f (firstn j l).
Proof.
  intros Hx Hy Hij. apply nth_error_split in Hx. destruct Hx as [l1 [l2 [-> <-]]].
  rewrite firstn_app, firstn_all, Nat.sub_diag. cbn [firstn]. rewrite app_nil_r.
  replace j with (length l1 + S (j - length l1 - 1)) by lia. rewrite firstn_app_2, total_app. cbn [firstn].
  unfold total at 3. cbn [map].
  change (list_sum (f x :: ?m)) with (f x + list_sum m). lia.
Qed.

Lemma C18_blocks_lemma {A} (groups : per_type (list (fgroup A))) :
  NoDup (map fg_id (all_groups groups)) ->
  let o := compute_offsets groups in
  (forall t g, In g (pt_get t groups) -> exists m p,
     dget Z.eqb (fg_id g) (of_group_msgs_starts o) = Some m /\
     dget Z.eqb (fg_id g) (of_group_pots_starts o) = Some p /\
     fst (pt_get t (of_msgs_range o)) <= m /\ m + group_states g <= snd (pt_get t (of_msgs_range o)) /\
     fst (pt_get t (of_pots_range o)) <= p /\ p + group_pots g <= snd (pt_get t (of_pots_range o)) /\
     slice (concat (pt_values (compile_log_potentials groups))) p (p + group_pots g) = fg_log_potentials g) /\
  (forall g g' m m' p p', In g (all_groups groups) -> In g' (all_groups groups) -> g <> g' ->
     dget Z.eqb (fg_id g) (of_group_msgs_starts o) = Some m -> dget Z.eqb (fg_id g') (of_group_msgs_starts o) = Some m' ->
     dget Z.eqb (fg_id g) (of_group_pots_starts o) = Some p -> dget Z.eqb (fg_id g') (of_group_pots_starts o) = Some p' ->
     (m + group_states g <= m' \/ m' + group_states g' <= m) /\
     (p + group_pots g <= p' \/ p' + group_pots g' <= p)).
Proof.
  intros Hnd o. destruct (compute_offsets_spec groups) as [R1 [R2 [_ [_ [R5 _]]]]]. fold o in R1, R2, R5.
  specialize (R5 Hnd). split.
  - intros t g Hg. rewrite (R1 t), (R2 t). cbn [fst snd].
    destruct (firstn_type_bounds group_states groups t g Hg) as [i [Hi [B1 B2]]].
    destruct (firstn_type_bounds group_pots groups t g Hg) as [i' [Hi' [B3 B4]]].
    assert (Ei : i = i').
    { apply (proj1 (NoDup_nth_error (map fg_id (all_groups groups))) Hnd).
      - rewrite map_length. apply nth_error_Some. congruence.
      - rewrite !nth_error_map, Hi, Hi'. reflexivity. }
    subst i'. destruct (R5 i g Hi) as [D1 D2]. eexists. eexists. split; [exact D1|]. split; [exact D2|].
    repeat (split; [assumption|]). rewrite flat_pots_all. now apply slice_group.
  - intros g g' m m' p p' Hg Hg' Hne D1 D2 D3 D4.
    apply In_nth_error in Hg. destruct Hg as [i Hi]. apply In_nth_error in Hg'. destruct Hg' as [j Hj].
    destruct (R5 i g Hi) as [E1 E3]. destruct (R5 j g' Hj) as [E2 E4].
    rewrite E1 in D1. rewrite E2 in D2. rewrite E3 in D3. rewrite E4 in D4.
    injection D1 as <-. injection D2 as <-. injection D3 as <-. injection D4 as <-.
    destruct (lt_eq_lt_dec i j) as [[Hij|Hij]|Hij].
    + split; left; now apply firstn_disjoint with (y := g').
    + subst j. congruence.
    + split; right; now apply firstn_disjoint with (y := g).
Qed.

Lemma edges_states_sum {A} (gs : list (fgroup A)) :
  list_sum (map snd (concat (concat (map fg_vars gs)))) = total group_states gs.
Proof.
  unfold total, group_states. induction gs as [|g l IH]; [reflexivity|]. cbn [map concat].
  rewrite concat_app, map_app, list_sum_app, IH. reflexivity.
Qed.
Lemma enum_edges_all {A} (gs : list (fgroup A)) : sf_edges (flat_map group_factors gs) = concat (concat (map fg_vars gs)).
Proof.
  induction gs as [|g l IH]; [reflexivity|]. cbn [flat_map map concat].
  now rewrite sf_edges_app, IH, group_factors_edges, concat_app.
Qed.
Lemma enum_nconfs_all {A} (gs : list (fgroup A)) :
  (forall g, In g gs -> fg_type g = TEnum /\ valid_group g /\ fg_vars g <> []) ->
  nconfs (flat_map group_factors gs) = total group_pots gs.
Proof.
  intros H. unfold nconfs, total. induction gs as [|g l IH]; [reflexivity|]. cbn [flat_map map].
  rewrite map_app, list_sum_app, IH by (intros h Hh; apply H; now right).
  change (list_sum (group_pots g :: map group_pots l)) with (group_pots g + list_sum (map group_pots l)). f_equal.
  change (nconfs (group_factors g) = group_pots g). rewrite group_nconfs.
  destruct (H g (or_introl eq_refl)) as [Ht [Hv Hne]]. unfold valid_group in Hv. rewrite Ht in Hv.
  destruct Hv as [nc [Hl Hv]]. unfold group_pots. rewrite Hl. destruct (fg_vars g) as [|v r]; [congruence|].
  destruct (Hv v (or_introl eq_refl)) as [-> _]. reflexivity.
Qed.

Lemma enum_last_ok {A} (gs : list (fgroup A)) : gs <> [] -> Forall arity_ok gs -> Forall has_rows gs ->
  last_ok (flat_map group_factors gs).
Proof.
  intros Hne Ha Hr. destruct (exists_last' gs Hne) as [l [g ->]].
  rewrite flat_map_app. cbn [flat_map]. rewrite app_nil_r.
  rewrite Forall_forall in Ha, Hr. assert (Hin : In g (l ++ [g])) by (apply in_or_app; right; now left).
  destruct (has_rows_last g (Ha g Hin) (Hr g Hin)) as [fs [F [E HF]]].
  exists (flat_map group_factors l ++ fs), F. split; [|exact HF]. now rewrite E, app_assoc.
Qed.

Lemma C18_state_lemma {A} junk (g : fgraph A) s :
  wf_groups (gr_groups g) -> compile_fg_state junk g = Ok s ->
  let size r := snd r - fst r in
  let w := st_wiring s in
  let msgs t := size (pt_get t (st_msgs_range s)) in
  let pots t := size (pt_get t (st_pots_range s)) in
  (list_sum (ew_edges_num_states (w_enum w)) = msgs TEnum /\ length (ew_var_states_for_edges (w_enum w)) = msgs TEnum) /\
  (list_sum (lw_edges_num_states (w_or w)) = msgs TOr /\ length (lw_var_states_for_edges (w_or w)) = msgs TOr) /\
  (list_sum (lw_edges_num_states (w_and w)) = msgs TAnd /\ length (lw_var_states_for_edges (w_and w)) = msgs TAnd) /\
  st_total_factor_num_states s = msgs TEnum + msgs TOr + msgs TAnd /\
  ew_num_val_configs (w_enum w) = pots TEnum /\
  length (st_log_potentials s) = pots TEnum + pots TOr + pots TAnd /\
  (forall t, slice (st_log_potentials s) (fst (pt_get t (st_pots_range s))) (snd (pt_get t (st_pots_range s)))
             = concat (map fg_log_potentials (pt_get t (gr_groups g)))).
Proof.
  intros Hwf H size w msgs pots. unfold compile_fg_state in H. cbv zeta in H.
  destruct (guard (gr_is_list g) AssertionError) as [[]|]; cbn [bind] in H; [|discriminate].
  destruct (compile_wirings junk (gr_vars_to_starts g) (gr_groups g)) as [w0|] eqn:Ew; cbn [bind] in H; [|discriminate].
  injection H as <-. unfold w, msgs, pots, size.
  unfold mk_fg_state. cbn [st_wiring st_msgs_range st_pots_range st_total_factor_num_states st_log_potentials].
  destruct (compute_offsets_spec (gr_groups g)) as [R1 [R2 [R3 _]]].
  apply compile_wirings_iff in Ew; [|exact Hwf]. destruct Ew as [Hk [Hr [Ho [Ha ->]]]].
  rewrite R3, !R1, !R2. cbn [w_enum w_or w_and fst snd].
  set (st := gr_vars_to_starts g) in *. set (G := gr_groups g) in *.
  destruct (lw_type_fields st TOr (logical_factors TOr G)) as [O1 [O2 _]].
  destruct (lw_type_fields st TAnd (logical_factors TAnd G)) as [A1 [A2 _]].
  rewrite O1, O2, A1, A2. cbn [ew_ideal ew_edges_num_states ew_var_states_for_edges].
  rewrite !edge_var_states_length. unfold enum_factors. rewrite enum_edges_all.
  unfold logical_factors. rewrite !edges_states_sum. cbn [pt_get].
  assert (Hms : forall t (f : fgroup A -> nat), type_start f t G + total f (pt_get t G) - type_start f t G = total f (pt_get t G)) by (intros; lia).
  split; [split; symmetry; apply (Hms TEnum)|]. split; [split; symmetry; apply (Hms TOr)|].
  split; [split; symmetry; apply (Hms TAnd)|].
  pose proof (Hms TEnum group_states) as M1. pose proof (Hms TOr group_states) as M2. pose proof (Hms TAnd group_states) as M3.
  pose proof (Hms TEnum group_pots) as P1. pose proof (Hms TOr group_pots) as P2. pose proof (Hms TAnd group_pots) as P3.
  cbn [pt_get] in M1, M2, M3, P1, P2, P3. rewrite M1, M2, M3, P1, P2, P3.
  assert (T : forall f : fgroup A -> nat, total f (all_groups G) = total f (pt_enum G) + total f (pt_or G) + total f (pt_and G)).
  { intros f. unfold all_groups. cbn [pt_values concat]. rewrite app_nil_r, !total_app. lia. }
  split; [apply T|]. split; [|split].
  - destruct (pt_enum G) as [|g0 rest] eqn:Ee; [reflexivity|]. rewrite <- Ee in *.
    change (ew_num_val_configs (ew_ideal st (flat_map group_factors (pt_enum G))) = total group_pots (pt_enum G)).
    rewrite num_val_configs_ideal.
    + change (nconfs (flat_map group_factors (pt_enum G)) = total group_pots (pt_enum G)).
      apply enum_nconfs_all. intros h Hh. exact (Hwf TEnum h Hh).
    + apply enum_last_ok; [rewrite Ee; discriminate|now apply wf_enum|exact Hr].
  - rewrite flat_pots_all, total_length_concat. apply T.
  - intros t. rewrite R2. cbn [fst snd]. apply slice_type.
Qed.

Lemma C20_var_states_lemma starts0 es e s x : nth_error es e = Some x -> s < snd x ->
  nth (edge_start es e + s) (edge_var_states starts0 es) (-1)%Z = Z.of_nat (start_of starts0 x + s).
Proof.
  intros H Hs. apply nth_error_split in H. destruct H as [l1 [l2 [-> <-]]].
  rewrite edge_var_states_app, app_nth2; rewrite edge_var_states_length.
  - unfold edge_start. rewrite map_app, off_app1 by (rewrite map_length; lia). rewrite off_all by (rewrite map_length; lia).
    replace (list_sum (map snd l1) + s - list_sum (map snd l1)) with s by lia.
    unfold edge_var_states. cbn [flat_map]. rewrite app_nth1 by (rewrite map_length, seq_length; exact Hs).
    now rewrite nth_map_seq.
  - unfold edge_start. rewrite map_app, off_app1 by (rewrite map_length; lia). rewrite off_all by (rewrite map_length; lia). lia.
Qed.
