(** * Proofs about evidence updates (C07-C09). *)
From Verif Require Import FGraph BPState Lists SpecVGroup SpecFGraph LemVGroup LemFGraph.
From Coq Require Import Lia Permutation.
Local Open Scope nat_scope.

(** ** Positions of variables *)
Lemma position_nth_error l x i :
  NoDup l -> (position x l = Some i <-> nth_error l i = Some x).
Proof.
  revert i; induction l as [|y r IH]; intros i Hnd; simpl.
  - split; [discriminate|destruct i; discriminate].
  - inversion Hnd; subst. destruct (var_eqb x y) eqn:E.
    + apply var_eqb_eq in E. subst. split.
      * intros H. injection H as <-. reflexivity.
      * destruct i as [|i]; [reflexivity|]. simpl. intros H. exfalso. apply H1. eapply nth_error_In; exact H.
    + apply var_eqb_neq in E. destruct i as [|i]; simpl.
      * split; [destruct (position x r); discriminate|]. intros H. congruence.
      * rewrite <- IH by assumption. destruct (position x r) as [j|]; simpl; [|split; discriminate].
        split; intros H; injection H as <-; reflexivity.
Qed.

Lemma position_In l x i : position x l = Some i -> In x l.
Proof.
  revert i; induction l as [|y r IH]; intros i; simpl; [discriminate|].
  destruct (var_eqb x y) eqn:E; [apply var_eqb_eq in E; now left|].
  destruct (position x r); [|discriminate]. intros _. right. eapply IH. reflexivity.
Qed.

Lemma position_None l x : position x l = None <-> ~ In x l.
Proof.
  induction l as [|y r IH]; simpl; [tauto|]. destruct (var_eqb x y) eqn:E.
  - apply var_eqb_eq in E. subst. split; [discriminate|tauto].
  - apply var_eqb_neq in E. destruct (position x r) eqn:E2; simpl.
    + split; [discriminate|]. intros H. exfalso. apply H. right. eapply position_In; exact E2.
    + split; [|reflexivity]. intros _ [H|H]; [congruence|]. now apply IH.
Qed.

Lemma all_vars_split gs1 g gs2 :
  all_vars (gs1 ++ g :: gs2) = all_vars gs1 ++ vg_variables g ++ all_vars gs2.
Proof. unfold all_vars. rewrite map_app, concat_app. reflexivity. Qed.

Lemma all_vars_In gs x : In x (all_vars gs) <-> exists g, In g gs /\ In x (vg_variables g).
Proof.
  unfold all_vars. rewrite in_concat. split.
  - intros [l [Hl Hx]]. apply in_map_iff in Hl. destruct Hl as [g [<- Hg]]. eauto.
  - intros [g [Hg Hx]]. exists (vg_variables g). split; [now apply in_map|exact Hx].
Qed.

(** Start of a group's block, given the groups before it. *)
Lemma snd_split gs1 g gs2 :
  groups_ok (gs1 ++ g :: gs2) ->
  map snd (all_vars (gs1 ++ g :: gs2)) = map snd (all_vars gs1) ++ vg_num_states g ++ map snd (all_vars gs2).
Proof.
  intros H. rewrite all_vars_split, !map_app. f_equal. f_equal. apply vg_variables_snd.
  eapply groups_ok_wf; [exact H|]. apply in_app_iff. right. now left.
Qed.

Lemma vg_variables_len g : wf_group g -> length (vg_variables g) = length (vg_num_states g).
Proof. intros H. now rewrite <- (vg_variables_snd g H), map_length. Qed.

Lemma dget_group_var gs1 g gs2 i x :
  groups_ok (gs1 ++ g :: gs2) -> nth_error (vg_variables g) i = Some x ->
  dget var_eqb x (layout (all_vars (gs1 ++ g :: gs2)))
  = Some (num_states_total gs1 + off (vg_num_states g) i) /\ snd x = nth i (vg_num_states g) 0.
Proof.
  intros Hok Hi. assert (Hlt : i < length (vg_variables g)) by (apply nth_error_Some; congruence).
  assert (Hw : wf_group g) by (eapply groups_ok_wf; [exact Hok|apply in_app_iff; right; now left]).
  split.
  - erewrite (dget_layout _ (length (all_vars gs1) + i)); [f_equal| |].
    + rewrite snd_split by exact Hok. unfold num_states_total.
      rewrite <- (map_length snd (all_vars gs1)), off_app2. f_equal. apply off_app1.
      rewrite <- vg_variables_len by exact Hw. lia.
    + now apply all_vars_NoDup.
    + rewrite all_vars_split. rewrite nth_error_app2 by lia.
      replace (length (all_vars gs1) + i - length (all_vars gs1)) with i by lia.
      rewrite nth_error_app1 by exact Hlt. exact Hi.
  - rewrite <- (vg_variables_snd g Hw). rewrite (nth_map _ _ _ _ (0%Z, 0)) by exact Hlt.
    now rewrite (nth_error_nth _ _ _ Hi).
Qed.

Lemma total_split gs1 g gs2 :
  groups_ok (gs1 ++ g :: gs2) ->
  num_states_total (gs1 ++ g :: gs2) = num_states_total gs1 + list_sum (vg_num_states g) + num_states_total gs2.
Proof.
  intros H. unfold num_states_total. rewrite snd_split by exact H. rewrite !list_sum_app. lia.
Qed.

(** Variables outside a group lie outside its block. *)
Lemma dget_outside_group gs1 g gs2 x s :
  groups_ok (gs1 ++ g :: gs2) -> ~ In x (vg_variables g) ->
  dget var_eqb x (layout (all_vars (gs1 ++ g :: gs2))) = Some s ->
  s + snd x <= num_states_total gs1 \/ num_states_total gs1 + list_sum (vg_num_states g) <= s.
Proof.
  intros Hok Hx Hs. pose proof (all_vars_NoDup _ Hok) as Hnd.
  pose proof (dget_layout_In _ _ _ Hs) as Hin. apply In_nth_error in Hin. destruct Hin as [k Hk].
  assert (Hlt : k < length (all_vars (gs1 ++ g :: gs2))) by (apply nth_error_Some; congruence).
  rewrite (dget_layout _ _ _ Hnd Hk) in Hs. injection Hs as <-.
  assert (Hsx : snd x = nth k (map snd (all_vars (gs1 ++ g :: gs2))) 0).
  { rewrite (nth_map _ _ _ _ (0%Z, 0)) by exact Hlt. now rewrite (nth_error_nth _ _ _ Hk). }
  rewrite Hsx. rewrite <- off_S by (rewrite map_length; exact Hlt).
  assert (Hw : wf_group g) by (eapply groups_ok_wf; [exact Hok|apply in_app_iff; right; now left]).
  assert (Hl : length (vg_variables g) = length (vg_num_states g)) by now apply vg_variables_len.
  rewrite snd_split by exact Hok. unfold num_states_total.
  destruct (Nat.lt_ge_cases k (length (all_vars gs1))) as [H1|H1].
  - left. rewrite off_app1 by (rewrite map_length; lia). apply off_le_sum.
  - right. rewrite all_vars_split, nth_error_app2 in Hk by lia.
    destruct (Nat.lt_ge_cases (k - length (all_vars gs1)) (length (vg_variables g))) as [H2|H2].
    + rewrite nth_error_app1 in Hk by exact H2. exfalso. apply Hx. eapply nth_error_In; exact Hk.
    + rewrite app_assoc. rewrite <- list_sum_app.
      set (k' := k - length (all_vars gs1) - length (vg_variables g)).
      replace k with (length (map snd (all_vars gs1) ++ vg_num_states g) + k')
        by (rewrite app_length, map_length; unfold k'; lia).
      rewrite off_app2. lia.
Qed.

(** ** What a group write supplies *)
Lemma entry_length {A} g (d : gdata A) i :
  wf_group g -> per_state g d -> i < length (vg_num_states g) ->
  length (entry g d i) = nth i (vg_num_states g) 0.
Proof.
  intros Hw Hp Hi. destruct g as [v|v], d as [a|m]; simpl in *; try contradiction.
  - destruct Hp as [Ha [Hne Hs]]. unfold wf_arr in Ha. rewrite Hs, prod_app in Ha. simpl in Ha.
    rewrite firstn_length, skipn_length, Ha.
    assert (Hle : nth i (va_num_states v) 0 <= nat_max (va_num_states v)) by (apply nat_max_ge, nth_In; exact Hi).
    nia.
  - destruct Hp as [Hne [H1 [H2 H3]]].
    assert (Hin : In (nth i (vd_names v) 0%Z) (vd_names v)) by (apply nth_In; lia).
    destruct (H3 _ Hin) as [a Ha]. rewrite Ha. apply dget_In in Ha. destruct Ha as [y [Hy E]].
    apply Z.eqb_eq in E. subst y.
    destruct (H2 _ _ i Hy) as [Hwf Hs]; [apply nth_error_nth'; lia|].
    unfold wf_arr in Hwf. rewrite Hwf, Hs. simpl. lia.
Qed.

Lemma per_state_flatten {A} g (d : gdata A) :
  constructed g -> per_state g d ->
  vg_flatten g d = Ok (concat (map (entry g d) (seq 0 (length (vg_num_states g))))).
Proof.
  intros Hc Hp. pose proof (constructed_wf _ Hc) as Hw. destruct g as [v|v], d as [a|m]; simpl in *; try contradiction.
  - destruct Hp as [Ha [Hne Hs]].
    destruct (C04_accept v a Hw Ha) as [[_ H] _]. destruct H as [f Hf]; [right; split; assumption|].
    rewrite Hf. f_equal. rewrite (C04_rows v a f Hw Ha Hs Hf). now rewrite Hw.
  - destruct Hp as [Hne [H1 [H2 H3]]]. destruct (vd_constructed_inv _ Hc) as [Hl Hnd].
    destruct (C05_flatten_lemma v m Hc) as [HF _]. apply HF. split; [|split; [exact Hne|]].
    + intros x a Hin. pose proof (H1 _ _ Hin) as Hx. apply In_nth_error in Hx. destruct Hx as [i Hi].
      exists i. split; [exact Hi|]. left. now apply (H2 x a i).
    + exists (map (fun i => match dget Z.eqb (nth i (vd_names v) 0%Z) m with Some a => a | None => mkArr [] [] end)
                  (seq 0 (length (vd_num_states v)))).
      split.
      * rewrite map_map. f_equal. apply map_ext. intros i. cbn [entry].
        destruct (dget Z.eqb (nth i (vd_names v) 0%Z) m); reflexivity.
      * rewrite Hl. rewrite (list_ext_seq (vd_names v) 0%Z) at 1.
        assert (Hb : forall i, In i (seq 0 (length (vd_names v))) -> In (nth i (vd_names v) 0%Z) (vd_names v)).
        { intros i Hi. apply in_seq in Hi. apply nth_In. lia. }
        revert Hb. generalize (seq 0 (length (vd_names v))) as l. induction l as [|i l IH]; intros Hb; simpl; constructor.
        -- destruct (H3 _ (Hb i (or_introl eq_refl))) as [a Ha]. now rewrite Ha.
        -- apply IH. intros j Hj. apply Hb. now right.
Qed.

Lemma concat_entries_length {A} g (d : gdata A) :
  wf_group g -> per_state g d ->
  map (@length A) (map (entry g d) (seq 0 (length (vg_num_states g)))) = vg_num_states g.
Proof.
  intros Hw Hp. rewrite map_map. rewrite (list_ext_seq (vg_num_states g) 0) at 2.
  apply map_ext_in. intros i Hi. apply in_seq in Hi. apply entry_length; auto. lia.
Qed.

Lemma slice_blit_part {A} a (ls : list (list A)) (xs : list A) i n :
  i < length ls -> n = length (nth i ls []) -> a + length (concat ls) <= length xs ->
  slice (blit a (concat ls) xs) (a + off (map (@length A) ls) i) (a + off (map (@length A) ls) i + n)
  = nth i ls [].
Proof.
  intros Hi -> Hl. destruct xs as [|d xs'] eqn:Hxs.
  - simpl in Hl. assert (a = 0 /\ concat ls = []) as [-> Hc] by (split; [lia|apply length_zero_iff_nil; lia]).
    rewrite Hc. simpl blit. unfold slice. rewrite skipn_nil, firstn_nil.
    assert (Hin : In (nth i ls []) ls) by (apply nth_In; exact Hi).
    destruct (nth i ls []) as [|y r] eqn:E; [reflexivity|].
    exfalso. assert (In y (concat ls)) by (apply in_concat; exists (y :: r); split; [exact Hin|now left]).
    rewrite Hc in H. destruct H.
  - rewrite <- Hxs in *. clear Hxs xs'.
    set (l := map (@length A) ls) in *.
    assert (Hll : length l = length ls) by (unfold l; now rewrite map_length).
    assert (Hni : nth i l 0 = length (nth i ls [])) by (unfold l; apply (nth_map (@length A)); exact Hi).
    assert (Hs : off l (S i) <= list_sum l) by apply off_le_sum. rewrite off_S in Hs by lia.
    rewrite concat_length in Hl. fold l in Hl.
    apply (nth_ext _ _ d d).
    + rewrite slice_length, blit_length. lia.
    + intros j Hj. rewrite slice_length, blit_length in Hj. rewrite nth_slice by lia.
      rewrite nth_blit_in by (rewrite ?concat_length; fold l; lia).
      replace (a + off l i + j - a) with (off l i + j) by lia. apply nth_concat; [exact Hi|lia].
Qed.

Lemma at_slice_set_block {A} (ev : list A) s n a :
  s + n <= length ev -> shape a = [n] -> wf_arr a -> at_slice_set ev s (s + n) a = Ok (blit s (data a) ev).
Proof.
  intros Hl Hs Hw. unfold at_slice_set. rewrite Hs.
  replace (Nat.min s (length ev)) with s by lia. replace (Nat.min (s + n) (length ev) - s) with n by lia.
  now rewrite Nat.eqb_refl.
Qed.

Lemma at_slice_set_vec {A} (ev : list A) s f :
  s + length f <= length ev -> at_slice_set ev s (s + length f) (vec f) = Ok (blit s f ev).
Proof.
  intros Hl. apply (at_slice_set_block ev s (length f) (vec f)); [exact Hl|reflexivity|].
  unfold wf_arr, vec. simpl. lia.
Qed.

(** ** One good write *)
Section Blocks.
  Context (gs : list vgroup).
  Hypothesis Hok : groups_ok gs.

  Lemma existsb_group g : In g gs -> existsb (vg_eqb g) gs = true.
  Proof. intros H. apply existsb_exists. exists g. split; [exact H|]. unfold vg_eqb. apply Z.eqb_refl. Qed.

  Lemma var_block x : In x (all_vars gs) ->
    exists s, dget var_eqb x (layout (all_vars gs)) = Some s /\ s + snd x <= num_states_total gs.
  Proof.
    intros Hin. apply In_nth_error in Hin. destruct Hin as [k Hk].
    assert (Hlt : k < length (all_vars gs)) by (apply nth_error_Some; congruence).
    eexists. split; [apply dget_layout; [now apply all_vars_NoDup|exact Hk]|].
    assert (Hsx : snd x = nth k (map snd (all_vars gs)) 0).
    { rewrite (nth_map _ _ _ _ (0%Z, 0)) by exact Hlt. now rewrite (nth_error_nth _ _ _ Hk). }
    rewrite Hsx, <- off_S by (rewrite map_length; exact Hlt). apply off_le_sum.
  Qed.

  Lemma blocks_disjoint x y s t :
    dget var_eqb x (layout (all_vars gs)) = Some s -> dget var_eqb y (layout (all_vars gs)) = Some t ->
    x <> y -> s + snd x <= t \/ t + snd y <= s.
  Proof.
    intros Hx Hy Hne.
    destruct (C06_lemma gs (FactorGraph (A := nat) (GsList gs)) Hok (reach_new gs (GsList gs) eq_refl)) as [_ [_ [H _]]].
    destruct (FactorGraph_layout (A := nat) (GsList gs) gs eq_refl Hok) as [_ [E _]]. rewrite E in H.
    eapply H; eassumption.
  Qed.

  Lemma group_first g : In g gs -> vg_variables g <> [] ->
    exists gs1 gs2 x r, gs = gs1 ++ g :: gs2 /\ vg_variables g = x :: r /\
      dget var_eqb x (layout (all_vars gs)) = Some (num_states_total gs1) /\
      num_states_total gs1 + list_sum (vg_num_states g) <= num_states_total gs.
  Proof.
    intros Hin Hne. apply in_split in Hin. destruct Hin as [gs1 [gs2 E]].
    destruct (vg_variables g) as [|x r] eqn:Hv; [congruence|]. exists gs1, gs2, x, r.
    split; [exact E|]. split; [reflexivity|]. pose proof Hok as Hok'. rewrite E in Hok' |- *.
    destruct (dget_group_var gs1 g gs2 0 x Hok') as [H _]; [now rewrite Hv|].
    rewrite H, off_0. split; [f_equal; lia|]. rewrite total_split by exact Hok'. lia.
  Qed.

End Blocks.

Section Good.
  Context {A : Type} (gs : list vgroup) (st : fg_state A).
  Hypothesis Hok : groups_ok gs.
  Hypothesis Hvg : st_variable_groups st = gs.
  Hypothesis Hvs : st_vars_to_starts st = layout (all_vars gs).

  Lemma per_state_nonempty g (d : gdata A) : constructed g -> per_state g d -> vg_num_states g <> [].
  Proof.
    intros Hc Hp. destruct g as [v|v], d as [a|m]; simpl in *; try contradiction; [tauto|].
    destruct (vd_constructed_inv _ Hc) as [Hl _]. destruct Hp as [Hp _].
    intros E. rewrite E in Hl. simpl in Hl. destruct (vd_names v); [congruence|discriminate].
  Qed.

  Lemma good_write_step u (ev : list A) :
    length ev = num_states_total gs -> good_write gs u ->
    exists ev', update_evidence_step st ev u = Ok ev' /\ length ev' = length ev /\
      forall x s, dget var_eqb x (layout (all_vars gs)) = Some s ->
        slice ev' s (s + snd x) = match covers u x with Some new => new | None => slice ev s (s + snd x) end.
  Proof.
    intros Hlen Hg. destruct u as [[g|v|] d]; simpl in Hg.
    - destruct Hg as [Hin Hp]. destruct (groups_ok_In _ _ Hok Hin) as [Hc Hsz].
      pose proof (constructed_wf _ Hc) as Hw.
      assert (Hne : vg_variables g <> []).
      { intros E. apply (per_state_nonempty _ _ Hc Hp). apply length_zero_iff_nil.
        rewrite <- vg_variables_len, E by exact Hw. reflexivity. }
      destruct (group_first gs Hok g Hin Hne) as [gs1 [gs2 [x0 [r [E [Hv [Hd Hle]]]]]]].
      set (ls := map (entry g d) (seq 0 (length (vg_num_states g)))).
      assert (Hml : map (@length A) ls = vg_num_states g) by (apply concat_entries_length; assumption).
      assert (Hcl : length (concat ls) = list_sum (vg_num_states g)) by (rewrite concat_length, Hml; reflexivity).
      exists (blit (num_states_total gs1) (concat ls) ev). split; [|split].
      + unfold update_evidence_step. rewrite Hvg, existsb_group by exact Hin. rewrite Hv, Hvs, Hd.
        rewrite per_state_flatten by assumption. cbn [bind]. fold ls. apply at_slice_set_vec. lia.
      + apply blit_length.
      + intros x s Hs. cbn [covers].
        assert (Hndg : NoDup (vg_variables g)).
        { destruct (C01_lemma' g Hc Hsz) as [_ [Hn _]]. eapply NoDup_map_inv. exact Hn. }
        destruct (position x (vg_variables g)) as [i|] eqn:Hpos; simpl.
        * apply position_nth_error in Hpos; [|exact Hndg].
          assert (Hi : i < length (vg_num_states g)).
          { rewrite <- vg_variables_len by exact Hw. apply nth_error_Some. congruence. }
          assert (Hok' := Hok). rewrite E in Hs, Hok'.
          destruct (dget_group_var gs1 g gs2 i x Hok' Hpos) as [Hs' Hsx].
          rewrite Hs' in Hs. injection Hs as <-. rewrite <- Hml at 1. rewrite <- Hml at 1.
          assert (Hnth : nth i ls [] = entry g d i) by (unfold ls; now rewrite nth_map_seq by exact Hi).
          rewrite slice_blit_part; [exact Hnth| | |lia].
          -- unfold ls. rewrite map_length, seq_length. exact Hi.
          -- rewrite Hnth, entry_length by assumption. exact Hsx.
        * apply position_None in Hpos. apply slice_blit_disjoint. rewrite Hcl.
          assert (Hok' := Hok). rewrite E in Hs, Hok'. eapply dget_outside_group; eassumption.
    - destruct d as [a|]; [|contradiction]. destruct Hg as [Hin [Hwf Hs]].
      destruct (var_block gs Hok v Hin) as [s0 [Hd Hle]].
      exists (blit s0 (data a) ev). split; [|split].
      + unfold update_evidence_step. rewrite Hvs, Hd. cbn [gdata_array bind].
        apply at_slice_set_block; [lia|exact Hs|exact Hwf].
      + apply blit_length.
      + intros x s Hx. simpl.
        assert (Hda : length (data a) = snd v) by (unfold wf_arr in Hwf; rewrite Hwf, Hs; simpl; lia).
        destruct (var_eqb v x) eqn:E.
        * apply var_eqb_eq in E. subst x. rewrite Hd in Hx. injection Hx as <-. rewrite <- Hda.
          apply slice_blit_same. lia.
        * apply var_eqb_neq in E. apply slice_blit_disjoint. rewrite Hda.
          destruct (blocks_disjoint gs Hok _ _ _ _ Hd Hx E); lia.
    - contradiction.
  Qed.

  Lemma good_writes us : forall ev : list A,
    length ev = num_states_total gs -> Forall (good_write gs) us ->
    exists ev', update_evidence st ev us = Ok ev' /\ length ev' = length ev /\
      forall x s, dget var_eqb x (layout (all_vars gs)) = Some s ->
        slice ev' s (s + snd x) = last_write us x (slice ev s (s + snd x)).
  Proof.
    unfold update_evidence, last_write. induction us as [|u us IH]; intros ev Hlen HF.
    - exists ev. simpl. auto.
    - apply Forall_cons_iff in HF. destruct HF as [Hu Hus].
      destruct (good_write_step u ev Hlen Hu) as [ev1 [H1 [H2 H3]]].
      destruct (IH ev1) as [ev2 [E1 [E2 E3]]]; [congruence|exact Hus|].
      exists ev2. split; [|split].
      + simpl. rewrite H1. exact E1.
      + congruence.
      + intros x s Hx. rewrite (E3 x s Hx). simpl. f_equal. now apply H3.
  Qed.
End Good.

Lemma update_evidence_app {A} (st : fg_state A) us vs ev :
  update_evidence st ev (us ++ vs) = (e <- update_evidence st ev us ;; update_evidence st e vs).
Proof. apply foldM_app. Qed.

Lemma setitem_fold {A} us : forall (c : container A) ev',
  update_evidence (snd (c_state c)) (c_value c) us = Ok ev' ->
  foldM (fun c u => Evidence_setitem c (fst u) (snd u)) us c = Ok (set_value c ev').
Proof.
  induction us as [|u us IH]; intros c ev' H.
  - injection H as <-. destruct c; reflexivity.
  - destruct u as [k d]. unfold update_evidence in H. cbn [foldM] in H |- *.
    cbn [fst snd]. unfold Evidence_setitem at 1, update_evidence. cbn [foldM].
    destruct (update_evidence_step (snd (c_state c)) (c_value c) (k, d)) as [e|e]; [|discriminate].
    cbn [bind] in *. rewrite (IH (set_value c e) ev'); [reflexivity|]. exact H.
Qed.

Lemma C07_lemma {A} gs (g : fgraph A) junk st n (ev : list A) us :
  groups_ok gs -> reachable gs g -> compile_fg_state junk g = Ok st ->
  length ev = st_num_var_states st -> Forall (good_write gs) us ->
  exists ev',
    update_evidence st ev us = Ok ev' /\
    foldM (fun c u => Evidence_setitem c (fst u) (snd u)) us {| c_state := (n, st); c_value := ev |}
    = Ok {| c_state := (n, st); c_value := ev' |} /\
    length ev' = length ev /\
    forall x, In x (all_vars gs) -> exists old,
      Evidence_getitem {| c_state := (n, st); c_value := ev |} x = Ok old /\ length old = snd x /\
      Evidence_getitem {| c_state := (n, st); c_value := ev' |} x = Ok (last_write us x old).
Proof.
  intros Hok Hr Hc Hlen HF. destruct (compile_fg_state_layout _ _ _ _ Hok Hr Hc) as [H1 [H2 H3]].
  rewrite H3 in Hlen. destruct (good_writes gs st Hok H1 H2 us ev Hlen HF) as [ev' [E1 [E2 E3]]].
  exists ev'. split; [exact E1|]. split; [|split; [exact E2|]].
  - apply (setitem_fold us {| c_state := (n, st); c_value := ev |}). exact E1.
  - intros x Hx. destruct (var_block gs Hok x Hx) as [s [Hs Hle]].
    exists (slice ev s (s + snd x)). unfold Evidence_getitem. simpl. rewrite H2, Hs.
    split; [reflexivity|]. split; [rewrite slice_length; lia|]. f_equal. now apply E3.
Qed.

(** ** C08 *)
Lemma at_slice_set_iff {A} (ev : list A) s n a :
  s + n <= length ev -> wf_arr a ->
  at_slice_set ev s (s + n) a =
    if shape_eqb (shape a) [n] then Ok (blit s (data a) ev)
    else if shape_eqb (shape a) [1] || shape_eqb (shape a) [] then
      match data a with x :: _ => Ok (blit s (repeat x n) ev) | [] => Raise ValueError end
    else Raise ValueError.
Proof.
  intros Hl Hw. unfold at_slice_set.
  replace (Nat.min s (length ev)) with s by lia. replace (Nat.min (s + n) (length ev) - s) with n by lia.
  assert (Hne : forall t u : list nat, length t <> length u -> shape_eqb t u = false).
  { intros t u H. destruct (shape_eqb t u) eqn:E; [|reflexivity]. apply shape_eqb_eq in E. congruence. }
  destruct (shape a) as [|k [|k2 r]]; [reflexivity| |now rewrite !Hne by (simpl; lia)].
  destruct (Nat.eqb_spec k n) as [->|Hn].
  - now rewrite shape_eqb_refl.
  - assert (E : shape_eqb [k] [n] = false).
    { destruct (shape_eqb [k] [n]) eqn:E; [|reflexivity]. apply shape_eqb_eq in E. congruence. }
    rewrite E. destruct (Nat.eqb_spec k 1) as [->|H1]; [reflexivity|].
    assert (E1 : shape_eqb [k] [1] = false).
    { destruct (shape_eqb [k] [1]) eqn:E1; [|reflexivity]. apply shape_eqb_eq in E1. congruence. }
    now rewrite E1.
Qed.

Lemma C08_var_lemma {A} gs (g : fgraph A) junk st (ev : list A) v a :
  groups_ok gs -> reachable gs g -> compile_fg_state junk g = Ok st ->
  length ev = st_num_var_states st -> In v (all_vars gs) -> wf_arr a ->
  (forall ev', update_evidence st ev [(EVar v, DArr a)] = Ok ev' <->
     exists s vals, dget var_eqb v (st_vars_to_starts st) = Some s /\ ev' = blit s vals ev /\
       (shape a = [snd v] /\ vals = data a \/
        (shape a = [1] \/ shape a = []) /\ exists x, data a = [x] /\ vals = repeat x (snd v))) /\
  ((exists ev', update_evidence st ev [(EVar v, DArr a)] = Ok ev') <->
     shape a = [snd v] \/ shape a = [1] \/ shape a = []) /\
  (forall e, update_evidence st ev [(EVar v, DArr a)] = Raise e -> e = ValueError).
Proof.
  intros Hok Hr Hc Hlen Hv Hw. destruct (compile_fg_state_layout _ _ _ _ Hok Hr Hc) as [H1 [H2 H3]].
  rewrite H3 in Hlen. destruct (var_block gs Hok v Hv) as [s [Hs Hle]].
  unfold update_evidence. cbn [foldM update_evidence_step]. rewrite H2, Hs. cbn [gdata_array bind].
  rewrite at_slice_set_iff by (try assumption; lia).
  unfold wf_arr in Hw.
  destruct (shape_eqb (shape a) [snd v]) eqn:E1.
  - apply shape_eqb_eq in E1. cbn [bind]. split; [|split].
    + intros ev'. split.
      * intros H. injection H as <-. exists s, (data a). auto.
      * intros [s' [vals [Hs' [-> [[_ ->]|[Hsh [x [Hx ->]]]]]]]]; injection Hs' as <-; [reflexivity|].
        destruct Hsh as [Hsh|Hsh]; rewrite E1 in Hsh; [|discriminate]. injection Hsh as ->. now rewrite Hx.
    + split; [auto|]. eauto.
    + discriminate.
  - assert (E1' : shape a <> [snd v]).
    { intros E. apply shape_eqb_eq in E. congruence. }
    destruct (shape_eqb (shape a) [1] || shape_eqb (shape a) []) eqn:E2.
    + assert (Hsh : shape a = [1] \/ shape a = []).
      { apply orb_true_iff in E2. destruct E2 as [E2|E2]; apply shape_eqb_eq in E2; auto. }
      assert (Hd : exists x, data a = [x]).
      { assert (length (data a) = 1) by (destruct Hsh as [Hsh|Hsh]; rewrite Hsh in Hw; exact Hw).
        destruct (data a) as [|x [|]]; simpl in *; try lia. eauto. }
      destruct Hd as [x Hd]. rewrite Hd. cbn [bind]. split; [|split].
      * intros ev'. split.
        -- intros H. injection H as <-. exists s, (repeat x (snd v)). split; [reflexivity|]. split; [reflexivity|].
           right. eauto.
        -- intros [s' [vals [Hs' [-> [[E _]|[_ [y [Hy ->]]]]]]]]; [contradiction|].
           injection Hs' as <-. injection Hy as <-. reflexivity.
      * split; [tauto|]. eauto.
      * discriminate.
    + apply orb_false_iff in E2. destruct E2 as [E2 E3].
      assert (N1 : shape a <> [1]) by (intros E; apply shape_eqb_eq in E; congruence).
      assert (N2 : shape a <> []) by (intros E; apply shape_eqb_eq in E; congruence).
      cbn [bind]. split; [|split].
      * intros ev'. split; [discriminate|]. intros [s' [vals [_ [_ [[E _]|[[E|E] _]]]]]]; contradiction.
      * split; [intros [ev' H]; discriminate|]. tauto.
      * intros e H. now injection H as <-.
Qed.

Lemma list_sum_ge_length l : (forall n, In n l -> 0 < n) -> length l <= list_sum l.
Proof.
  induction l as [|x r IH]; intros H; simpl; [lia|].
  specialize (IH (fun n Hn => H n (or_intror Hn))). specialize (H x (or_introl eq_refl)).
  change (S (length r) <= x + list_sum r). lia.
Qed.

Lemma C08_array_lemma {A} gs1 v gs2 (g : fgraph A) junk st (ev : list A) a :
  let gs := gs1 ++ VA v :: gs2 in
  groups_ok gs -> reachable gs g -> compile_fg_state junk g = Ok st ->
  length ev = st_num_var_states st -> wf_arr a ->
  va_num_states v <> [] -> (forall n, In n (va_num_states v) -> 0 < n) -> shape a = va_shape v ->
  exists ev', update_evidence st ev [(EGroup (VA v), DArr a)] = Ok ev' /\ length ev' = length ev /\
    forall p d, nth p ev' d =
      let s := list_sum (map snd (all_vars gs1)) in
      if (s <=? p) && (p <? s + cells (va_shape v)) then nth (p - s) (data a) d else nth p ev d.
Proof.
  intros gs Hok Hr Hc Hlen Hw Hne Hpos Hsh. destruct (compile_fg_state_layout _ _ _ _ Hok Hr Hc) as [H1 [H2 H3]].
  rewrite H3 in Hlen.
  assert (Hin : In (VA v) gs) by (unfold gs; apply in_app_iff; right; now left).
  destruct (groups_ok_In _ _ Hok Hin) as [Hcv _]. pose proof (constructed_wf _ Hcv) as Hwf. simpl in Hwf.
  assert (Hfirst : exists x, nth_error (vg_variables (VA v)) 0 = Some x).
  { destruct (nth_error (vg_variables (VA v)) 0) eqn:E; [eauto|]. apply nth_error_None in E.
    rewrite vg_variables_len in E by exact Hwf. simpl in E. destruct (va_num_states v); [congruence|simpl in E; lia]. }
  destruct Hfirst as [x Hx]. destruct (dget_group_var gs1 (VA v) gs2 0 x Hok Hx) as [Hd _].
  rewrite off_0, Nat.add_0_r in Hd. fold gs in Hd.
  assert (Hda : length (data a) = prod (va_shape v)) by (unfold wf_arr in Hw; rewrite Hw, Hsh; reflexivity).
  assert (Hle : num_states_total gs1 + length (data a) <= length ev).
  { rewrite Hlen. unfold gs. rewrite total_split by exact Hok. simpl.
    pose proof (list_sum_ge_length _ Hpos). lia. }
  exists (blit (num_states_total gs1) (data a) ev). split; [|split].
  - unfold update_evidence. cbn [foldM update_evidence_step]. rewrite H1, existsb_group by exact Hin.
    destruct (vg_variables (VA v)) as [|y r]; [discriminate|]. simpl in Hx. injection Hx as ->.
    rewrite H2, Hd. cbn [vg_flatten]. unfold va_flatten. rewrite Hsh, shape_eqb_refl. cbn [bind].
    rewrite at_slice_set_vec by exact Hle. reflexivity.
  - apply blit_length.
  - intros p d. change (cells (va_shape v)) with (prod (va_shape v)). rewrite <- Hda.
    fold (num_states_total gs1). cbv zeta.
    destruct (Nat.leb_spec (num_states_total gs1) p) as [Hp|Hp]; simpl.
    + destruct (Nat.ltb_spec p (num_states_total gs1 + length (data a))) as [Hq|Hq].
      * apply nth_blit_in; lia.
      * apply nth_blit_out; lia.
    + apply nth_blit_out; lia.
Qed.

(** ** C09 *)
Lemma ForallOrdPairs_perm {A} (R : A -> A -> Prop) l l' :
  (forall x y, R x y -> R y x) -> Permutation l l' -> ForallOrdPairs R l -> ForallOrdPairs R l'.
Proof.
  intros Hsym HP. induction HP as [|x l l' HP IH|x y l|l1 l2 l3 HP1 IH1 HP2 IH2]; intros H.
  - constructor.
  - inversion H as [|? ? Hx Hl]; subst. constructor; [|auto].
    rewrite Forall_forall in *. intros z Hz. apply Hx. eapply Permutation_in; [symmetry; exact HP|exact Hz].
  - inversion H as [|? ? Hy Hl]; subst. inversion Hl as [|? ? Hx Hl']; subst.
    inversion Hy as [|? ? Hyx Hyl]; subst. repeat constructor; auto.
  - auto.
Qed.

Lemma foldM_perm {S A} (f : S -> A -> res S) (Inv : S -> Prop) (R : A -> A -> Prop) l l' :
  (forall x y, R x y -> R y x) ->
  (forall s x s', Inv s -> f s x = Ok s' -> Inv s') ->
  (forall s x y r, Inv s -> R x y ->
     (s1 <- f s x ;; f s1 y) = Ok r -> (s1 <- f s y ;; f s1 x) = Ok r) ->
  Permutation l l' -> ForallOrdPairs R l ->
  forall s r, Inv s -> foldM f l s = Ok r -> foldM f l' s = Ok r.
Proof.
  intros Hsym Hinv Hcomm HP. induction HP as [|x l l' HP IH|x y l|l1 l2 l3 HP1 IH1 HP2 IH2]; intros HR s r Hs H.
  - exact H.
  - inversion HR as [|? ? Hx Hl]; subst. simpl in *. destruct (f s x) as [s1|e] eqn:E; [|discriminate].
    cbn [bind] in *. apply IH; eauto.
  - inversion HR as [|? ? Hy Hl]; subst. inversion Hl as [|? ? Hx Hl']; subst.
    inversion Hy as [|? ? Hyx Hyl]; subst. simpl in *.
    pose proof (fun t => Hcomm s y x t Hs Hyx) as Hc.
    destruct (f s y) as [s1|e]; [|discriminate]. cbn [bind] in *.
    destruct (f s1 x) as [s2|e]; [|discriminate]. cbn [bind] in *.
    specialize (Hc s2 eq_refl). destruct (f s x) as [s3|e]; [|discriminate]. cbn [bind] in *.
    rewrite Hc. exact H.
  - eapply IH2; [|exact Hs|]; [|eapply IH1; eassumption].
    eapply ForallOrdPairs_perm; eassumption.
Qed.

Lemma vg_eqb_ids g h : vg_eqb g h = true -> (vg_id g mod 2 ^ 32 = vg_id h mod 2 ^ 32)%Z.
Proof.
  unfold vg_eqb, vg_hash. rewrite Z.eqb_eq. unfold MAX_SIZE. intros H. lia.
Qed.

Lemma flatten_length_le {A} g (d : gdata A) f :
  constructed g -> (forall n, In n (vg_num_states g) -> 0 < n) ->
  (forall a, d = DArr a -> wf_arr a) -> (forall m x a, d = DMap m -> In (x, a) m -> wf_arr a) ->
  vg_flatten g d = Ok f -> length f <= list_sum (vg_num_states g).
Proof.
  intros Hc Hpos Hw1 Hw2 Hf. pose proof (constructed_wf _ Hc) as Hw.
  destruct g as [v|v], d as [a|m]; simpl in *; try discriminate.
  - specialize (Hw1 a eq_refl). destruct (C04_accept v a Hw Hw1) as [[H _] _].
    destruct H as [H|[Hne H]]; [eauto| |].
    + unfold va_flatten in Hf. rewrite H, shape_eqb_refl in Hf. injection Hf as <-.
      unfold wf_arr in Hw1. rewrite Hw1, H, <- Hw. now apply list_sum_ge_length.
    + rewrite (C04_rows v a f Hw Hw1 H Hf). rewrite concat_length.
      assert (Hp : per_state (VA v) (DArr a)) by (simpl; auto).
      pose proof (concat_entries_length (VA v) (DArr a) Hw Hp) as E. cbn [vg_num_states] in E.
      rewrite <- Hw. change (list_sum (map (@length A) (map (entry (VA v) (DArr a)) (seq 0 (length (va_num_states v)))))
                             <= list_sum (va_num_states v)). rewrite E. lia.
  - destruct (vd_constructed_inv _ Hc) as [Hl Hnd].
    apply (proj1 (C05_flatten_lemma v m Hc)) in Hf. destruct Hf as [Hok [Hne [parts [-> HF]]]].
    assert (Hgen : forall names ns ps, Forall2 (fun x a => dget Z.eqb x m = Some a) names ps ->
              (forall n, In n ns -> 0 < n) -> length ns = length names ->
              (forall i x, nth_error names i = Some x -> exists j, nth_error (vd_names v) j = Some x
                   /\ nth j (vd_num_states v) 0 = nth i ns 0) ->
              length (concat (map (@data A) ps)) <= list_sum ns).
    { clear - Hok Hw2 Hnd. intros names ns ps HF. revert ns.
      induction HF as [|x a names ps Hx HF IH]; intros ns Hpos Hlen Hj; simpl; [lia|].
      destruct ns as [|n ns]; [discriminate|]. rewrite app_length.
      change (list_sum (n :: ns)) with (n + list_sum ns).
      assert (length (data a) <= n).
      { apply dget_In in Hx. destruct Hx as [y [Hy E]]. apply Z.eqb_eq in E. subst y.
        destruct (Hok _ _ Hy) as [i [Hi Hsh]]. pose proof (Hw2 m x a eq_refl Hy) as Hwf. unfold wf_arr in Hwf.
        destruct (Hj 0 x eq_refl) as [j [Hj1 Hj2]].
        assert (i = j).
        { eapply (proj1 (NoDup_nth_error _)); [exact Hnd| |congruence]. apply nth_error_Some. congruence. }
        subst j. simpl in Hj2. specialize (Hpos n (or_introl eq_refl)). rewrite Hwf.
        destruct Hsh as [->| ->]; simpl; lia. }
      enough (length (concat (map (@data A) ps)) <= list_sum ns) by lia.
      apply IH; [intros k Hk; apply Hpos; now right|simpl in Hlen; lia|].
      intros i y Hy. destruct (Hj (S i) y Hy) as [j Hjj]. exists j. exact Hjj. }
    apply (Hgen (vd_names v)); auto. intros i x Hx. exists i. auto.
Qed.

Section Order.
  Context {A : Type} (gs : list vgroup) (st : fg_state A).
  Hypothesis Hok : groups_ok gs.
  Hypothesis Hvg : st_variable_groups st = gs.
  Hypothesis Hvs : st_vars_to_starts st = layout (all_vars gs).
  Hypothesis Hpos : forall x, In x (all_vars gs) -> 0 < snd x.

  Lemma step_effect u (ev : list A) ev' :
    length ev = num_states_total gs -> plain_key gs (fst u) -> data_ok (snd u) ->
    update_evidence_step st ev u = Ok ev' ->
    exists s vals,
      (forall ev2, length ev2 = num_states_total gs -> update_evidence_step st ev2 u = Ok (blit s vals ev2)) /\
      ev' = blit s vals ev /\
      match fst u with
      | EGroup g => exists gs1 gs2, gs = gs1 ++ g :: gs2 /\ s = num_states_total gs1 /\
                      length vals <= list_sum (vg_num_states g) /\ vg_variables g <> []
      | EVar v => In v (all_vars gs) /\ dget var_eqb v (layout (all_vars gs)) = Some s /\ length vals = snd v
      | EOther => False
      end.
  Proof.
    intros Hlen Hk Hd Hu. destruct u as [[g|v|] d]; cbn [fst snd] in *; [| |discriminate].
    - unfold update_evidence_step in Hu |- *. rewrite Hvg in Hu |- *.
      destruct (existsb (vg_eqb g) gs) eqn:Ex; [|discriminate].
      assert (Hin : In g gs).
      { destruct Hk as [Hin|Hk]; [exact Hin|]. apply existsb_exists in Ex. destruct Ex as [h [Hh E]].
        apply vg_eqb_ids in E. exfalso. now apply (Hk h Hh). }
      destruct (groups_ok_In _ _ Hok Hin) as [Hc Hsz]. pose proof (constructed_wf _ Hc) as Hw.
      assert (Hne : vg_variables g <> []) by (destruct (vg_variables g); [discriminate|congruence]).
      destruct (group_first gs Hok g Hin Hne) as [gs1 [gs2 [x [r [E [Hv [Hs Hle]]]]]]].
      rewrite Hv, Hvs, Hs in Hu |- *. destruct (vg_flatten g d) as [f|e] eqn:Hf; [|discriminate]. cbn [bind] in *.
      assert (Hfl : length f <= list_sum (vg_num_states g)).
      { apply (flatten_length_le g d f); auto.
        - intros n Hn. rewrite <- (vg_variables_snd g Hw) in Hn. apply in_map_iff in Hn.
          destruct Hn as [y [<- Hy]]. apply Hpos. apply all_vars_In. eauto.
        - intros a ->. exact Hd.
        - intros m y a ->. apply Hd. }
      exists (num_states_total gs1), f. split; [|split].
      + intros ev2 Hl2. apply at_slice_set_vec. lia.
      + rewrite at_slice_set_vec in Hu by lia. congruence.
      + exists gs1, gs2. repeat split; auto. congruence.
    - unfold update_evidence_step in Hu |- *. rewrite Hvs in Hu |- *.
      destruct (dget var_eqb v (layout (all_vars gs))) as [s|] eqn:Hs; [|discriminate].
      pose proof (dget_layout_In _ _ _ Hs) as Hin.
      destruct (var_block gs Hok v Hin) as [s' [Hs' Hle]]. rewrite Hs in Hs'. injection Hs' as <-.
      destruct d as [a|]; [|discriminate]. cbn [gdata_array bind] in *. simpl in Hd.
      rewrite at_slice_set_iff in Hu by (try assumption; lia).
      assert (Hgen : forall vals, length vals = snd v -> 
        (forall ev2, length ev2 = num_states_total gs -> at_slice_set ev2 s (s + snd v) a = Ok (blit s vals ev2)) ->
        ev' = blit s vals ev -> exists s0 vals,
         (forall ev2, length ev2 = num_states_total gs -> at_slice_set ev2 s (s + snd v) a = Ok (blit s0 vals ev2)) /\
          ev' = blit s0 vals ev /\ In v (all_vars gs) /\ Some s = Some s0 /\ length vals = snd v).
      { intros vals Hv1 Hv2 Hv3. exists s, vals. auto. }
      destruct (shape_eqb (shape a) [snd v]) eqn:E1.
      + injection Hu as <-. apply (Hgen (data a)); auto.
        * apply shape_eqb_eq in E1. unfold wf_arr in Hd. rewrite Hd, E1. simpl. lia.
        * intros ev2 Hl2. rewrite at_slice_set_iff by (try assumption; lia). now rewrite E1.
      + destruct (shape_eqb (shape a) [1] || shape_eqb (shape a) []) eqn:E2; [|discriminate].
        destruct (data a) as [|y r] eqn:Ed; [discriminate|]. injection Hu as <-.
        apply (Hgen (repeat y (snd v))); auto.
        * apply repeat_length.
        * intros ev2 Hl2. rewrite at_slice_set_iff by (try assumption; lia). now rewrite E1, E2, Ed.
  Qed.

  Lemma two_groups gs1 g gs2 hs1 h hs2 :
    gs = gs1 ++ g :: gs2 -> gs = hs1 ++ h :: hs2 -> vg_variables g <> [] -> vg_variables h <> [] ->
    (forall x, ~ (In x (vg_variables g) /\ In x (vg_variables h))) ->
    num_states_total gs1 + list_sum (vg_num_states g) <= num_states_total hs1 \/
    num_states_total hs1 + list_sum (vg_num_states h) <= num_states_total gs1.
  Proof.
    intros E1 E2 N1 N2 Hdis. destruct (vg_variables h) as [|y r] eqn:Hh; [congruence|].
    assert (Hy : ~ In y (vg_variables g)) by (intros Hy; apply (Hdis y); split; [exact Hy|now left]).
    assert (Hok2 := Hok). rewrite E2 in Hok2. assert (Hok1 := Hok). rewrite E1 in Hok1.
    destruct (dget_group_var hs1 h hs2 0 y Hok2) as [Hs Hsy]; [now rewrite Hh|].
    rewrite off_0, Nat.add_0_r in Hs. rewrite <- E2, E1 in Hs.
    pose proof (dget_outside_group _ _ _ _ _ Hok1 Hy Hs) as [H|H]; [|left; exact H].
    right. destruct (vg_variables g) as [|x q] eqn:Hg; [congruence|].
    assert (Hx : ~ In x (vg_variables h)) by (rewrite Hh; intros Hx; apply (Hdis x); split; [now left|exact Hx]).
    destruct (dget_group_var gs1 g gs2 0 x Hok1) as [Ht Htx]; [now rewrite Hg|].
    rewrite off_0, Nat.add_0_r in Ht. rewrite <- E1, E2 in Ht.
    pose proof (dget_outside_group _ _ _ _ _ Hok2 Hx Ht) as [H'|H']; [|exact H'].
    assert (0 < snd x).
    { apply Hpos. rewrite E1, all_vars_split, Hg. apply in_app_iff. right. now left. }
    lia.
  Qed.

  Lemma evidence_comm (ev : list A) u v r :
    length ev = num_states_total gs -> plain_key gs (fst u) -> plain_key gs (fst v) ->
    data_ok (snd u) -> data_ok (snd v) -> disjoint_updates u v ->
    (e <- update_evidence_step st ev u ;; update_evidence_step st e v) = Ok r ->
    (e <- update_evidence_step st ev v ;; update_evidence_step st e u) = Ok r.
  Proof.
    intros Hlen Hku Hkv Hdu Hdv Hdis H.
    destruct (update_evidence_step st ev u) as [e1|] eqn:E1; [|discriminate]. cbn [bind] in H.
    destruct (step_effect u ev e1 Hlen Hku Hdu E1) as [s [vals [F1 [-> B1]]]].
    assert (Hlen1 : length (blit s vals ev) = num_states_total gs) by now rewrite blit_length.
    destruct (step_effect v _ r Hlen1 Hkv Hdv H) as [t [ws [F2 [-> B2]]]].
    rewrite (F2 ev Hlen). cbn [bind]. rewrite F1 by now rewrite blit_length. f_equal. apply blit_comm.
    destruct u as [ku du], v as [kv dv]; cbn [fst snd] in *.
    unfold disjoint_updates in Hdis. cbn [fst] in Hdis.
    destruct ku as [g|x|], kv as [h|y|]; try contradiction.
    - destruct B1 as [gs1 [gs2 [Eg [-> [Lg Ng]]]]]. destruct B2 as [hs1 [hs2 [Eh [-> [Lh Nh]]]]].
      destruct (two_groups _ _ _ _ _ _ Eg Eh Ng Nh Hdis); lia.
    - destruct B1 as [gs1 [gs2 [Eg [-> [Lg Ng]]]]]. destruct B2 as [Hy [Hs Ly]].
      assert (Hn : ~ In y (vg_variables g)) by (intros Hi; apply (Hdis y); split; [exact Hi|reflexivity]).
      assert (Hok' := Hok). rewrite Eg in Hs, Hok'.
      destruct (dget_outside_group _ _ _ _ _ Hok' Hn Hs); lia.
    - destruct B2 as [gs1 [gs2 [Eg [-> [Lg Ng]]]]]. destruct B1 as [Hy [Hs Ly]].
      assert (Hn : ~ In x (vg_variables h)) by (intros Hi; apply (Hdis x); split; [reflexivity|exact Hi]).
      assert (Hok' := Hok). rewrite Eg in Hs, Hok'.
      destruct (dget_outside_group _ _ _ _ _ Hok' Hn Hs); lia.
    - destruct B1 as [Hx [Hs Lx]]. destruct B2 as [Hy [Ht Ly]].
      assert (Hn : x <> y) by (intros ->; apply (Hdis y); split; reflexivity).
      destruct (blocks_disjoint gs Hok _ _ _ _ Hs Ht Hn); lia.
  Qed.
End Order.

Lemma C09_lemma {A} gs (g : fgraph A) junk st (ev : list A) us us' :
  groups_ok gs -> (forall x, In x (all_vars gs) -> 0 < snd x) ->
  reachable gs g -> compile_fg_state junk g = Ok st -> length ev = st_num_var_states st ->
  Forall (update_ok gs) us -> ForallOrdPairs disjoint_updates us -> Permutation us us' ->
  forall ev', update_evidence st ev us = Ok ev' <-> update_evidence st ev us' = Ok ev'.
Proof.
  intros Hok Hpos Hr Hc Hlen HF Hdis HP. destruct (compile_fg_state_layout _ _ _ _ Hok Hr Hc) as [H1 [H2 H3]].
  rewrite H3 in Hlen.
  set (R := fun u v : ev_key * gdata A => update_ok gs u /\ update_ok gs v /\ disjoint_updates u v).
  assert (Hsym : forall x y, R x y -> R y x).
  { intros x y [Hx [Hy Hd]]. split; [exact Hy|]. split; [exact Hx|]. intros z [Ha Hb]. apply (Hd z). auto. }
  assert (HR : ForallOrdPairs R us).
  { clear - HF Hdis. induction Hdis as [|u us Hu Hus IH]; [constructor|].
    apply Forall_cons_iff in HF. destruct HF as [H1 H2]. constructor; [|auto].
    rewrite Forall_forall in *. intros v Hv. split; [exact H1|]. split; [now apply H2|now apply Hu]. }
  assert (Hinv : forall (s : list A) x s', length s = num_states_total gs -> update_evidence_step st s x = Ok s' ->
            length s' = num_states_total gs).
  { intros s [k d] s' Hl Hs. unfold update_evidence_step in Hs.
    assert (Hat : forall (xs : list A) a b v ys, at_slice_set xs a b v = Ok ys -> length ys = length xs).
    { clear. intros xs a b v ys. unfold at_slice_set. destruct (shape v) as [|k [|]]; [| |discriminate].
      - destruct (data v); [discriminate|]. intros H. injection H as <-. apply blit_length.
      - destruct (k =? _); [intros H; injection H as <-; apply blit_length|].
        destruct (k =? 1); [|discriminate]. destruct (data v); [discriminate|].
        intros H. injection H as <-. apply blit_length. }
    destruct k as [h|v|]; [| |discriminate].
    - destruct (existsb _ _); [|discriminate]. destruct (vg_variables h); [discriminate|].
      destruct (dget _ _ _); [|discriminate]. destruct (vg_flatten h d); [|discriminate]. cbn [bind] in Hs.
      apply Hat in Hs. congruence.
    - destruct (dget _ _ _); [|discriminate]. destruct (gdata_array d); [|discriminate]. cbn [bind] in Hs.
      apply Hat in Hs. congruence. }
  assert (Hcomm : forall s x y r, length s = num_states_total gs -> R x y ->
            (s1 <- update_evidence_step st s x ;; update_evidence_step st s1 y) = Ok r ->
            (s1 <- update_evidence_step st s y ;; update_evidence_step st s1 x) = Ok r).
  { intros s x y r Hl [[Hx1 Hx2] [[Hy1 Hy2] Hd]]. eapply evidence_comm; eassumption. }
  intros ev'. unfold update_evidence. split.
  - intros H. eapply (foldM_perm _ (fun s => length s = num_states_total gs) R); eauto.
  - intros H. eapply (foldM_perm _ (fun s => length s = num_states_total gs) R us' us); eauto.
    + now symmetry.
    + eapply ForallOrdPairs_perm; eauto.
Qed.

Lemma C07_reads_lemma {A} gs (g : fgraph A) junk st n (ev : list A) x :
  groups_ok gs -> reachable gs g -> compile_fg_state junk g = Ok st -> length ev = st_num_var_states st ->
  (In x (all_vars gs) -> exists vals, Evidence_getitem {| c_state := (n, st); c_value := ev |} x = Ok vals /\ length vals = snd x) /\
  (~ In x (all_vars gs) -> Evidence_getitem {| c_state := (n, st); c_value := ev |} x = Raise KeyError /\
     forall a, update_evidence st ev [(EVar x, DArr a)] = Raise ValueError).
Proof.
  intros Hok Hr Hc Hlen. split.
  - intros Hx. destruct (C07_lemma gs g junk st n ev [] Hok Hr Hc Hlen (Forall_nil _)) as [ev' [_ [_ [_ H]]]].
    destruct (H x Hx) as [old [E [L _]]]. now exists old.
  - intros Hx. destruct (C06_compiled_lemma gs g junk st Hok Hr Hc) as [_ [E _]].
    assert (N : dget var_eqb x (st_vars_to_starts st) = None).
    { rewrite E. destruct (dget var_eqb x (gr_vars_to_starts g)) as [s|] eqn:F; [|reflexivity].
      exfalso. apply Hx. now apply (proj1 (proj2 (C06_lemma gs g Hok Hr)) x s). }
    split; [unfold Evidence_getitem; cbn [c_state snd]; now rewrite N|]. intros a. unfold update_evidence, update_evidence_step. cbn. now rewrite N.
Qed.

Lemma C08_errors_lemma {A} gs (g : fgraph A) junk st (ev : list A) :
  groups_ok gs -> reachable gs g -> compile_fg_state junk g = Ok st ->
  (forall v m, In v (all_vars gs) -> update_evidence st ev [(EVar v, DMap m)] = Raise TypeError) /\
  (forall h d, In h gs -> vg_variables h = [] -> update_evidence st ev [(EGroup h, d)] = Raise IndexError) /\
  (forall h d e, In h gs -> vg_variables h <> [] -> vg_flatten h d = Raise e ->
     update_evidence st ev [(EGroup h, d)] = Raise e) /\
  (forall h d, (forall h', In h' gs -> (vg_id h mod 2 ^ 32 <> vg_id h' mod 2 ^ 32)%Z) ->
     update_evidence st ev [(EGroup h, d)] = Raise ValueError) /\
  (forall d, update_evidence st ev [(EOther, d)] = Raise ValueError).
Proof.
  intros Hok Hr Hc. destruct (compile_fg_state_layout _ _ _ _ Hok Hr Hc) as [H1 [H2 H3]].
  unfold update_evidence. cbn [foldM update_evidence_step].
  split; [|split; [|split; [|split]]].
  - intros v m Hv. destruct (var_block gs Hok v Hv) as [s [Hs _]]. now rewrite H2, Hs.
  - intros h d Hh Hv. rewrite H1, (existsb_group gs h Hh), Hv. reflexivity.
  - intros h d e Hh Hv Hf. rewrite H1, (existsb_group gs h Hh).
    destruct (group_first gs Hok h Hh Hv) as [gs1 [gs2 [x [r [_ [-> [Hd _]]]]]]]. now rewrite H2, Hd, Hf.
  - intros h d Hn. rewrite H1. destruct (existsb (vg_eqb h) gs) eqn:E; [|reflexivity].
    apply existsb_exists in E. destruct E as [h' [Hin E]]. apply vg_eqb_ids in E. now apply Hn in Hin.
  - reflexivity.
Qed.
