(** * Proofs about negating variables (C61). *)
From Verif Require Import NumPy Lists VGroup FGraph BPState BP SpecVGroup SpecFGraph SpecFactor SpecAdd SpecWiring SpecState SpecBP SpecText SpecBeliefs SpecPerm SpecLocal SpecDual.
From Verif Require Import LemFactor LemFGraph LemAdd LemWiring LemGraph LemState LemNum LemNorm LemVtoF LemLogBP LemText LemRun LemBeliefs LemShift LemPerm LemStable LemLocal LemBrute LemReorder.
From Coq Require Import Reals Lra Lia Permutation FinFun.
Local Open Scope nat_scope.

Lemma perm_below_turn fl x : (fl x = true -> snd x = 2) -> perm_below (snd x) (turn fl x).
Proof. intros H. unfold turn. destruct (fl x); [rewrite H by reflexivity; split; intros; lia|apply perm_below_id]. Qed.

(** ** Negated assignments *)
Definition neg (c : list Z) : list Z := map (fun z => 1 - z)%Z c.
Lemma neg_neg c : neg (neg c) = c.
Proof. unfold neg. rewrite map_map. rewrite <- (map_id c) at 2. apply map_ext. intros z. lia. Qed.
Lemma In_bools_neg k b : In b (bools k) -> In (neg b) (bools k).
Proof.
  intros H. apply In_bools in H. destruct H as [H1 H2]. apply In_bools. unfold neg. split; [now rewrite map_length|]. intros z Hz. apply in_map_iff in Hz. destruct Hz as [y [<- Hy]].
  specialize (H2 y Hy). lia.
Qed.
Definition other (t : ftype) : ftype := match t with TAnd => TOr | _ => TAnd end.
Lemma forallb_neg b : (forall z, In z b -> z = 0%Z \/ z = 1%Z) -> forallb (Z.eqb 1) (neg b) = negb (existsb (Z.eqb 1) b).
Proof.
  induction b as [|z b IH]; intros Hb; [reflexivity|]. cbn [neg map forallb existsb]. fold (neg b). rewrite IH by (intros y Hy; apply Hb; now right).
  destruct (Hb z (or_introl eq_refl)) as [->| ->]; reflexivity.
Qed.
Lemma existsb_neg b : (forall z, In z b -> z = 0%Z \/ z = 1%Z) -> existsb (Z.eqb 1) (neg b) = negb (forallb (Z.eqb 1) b).
Proof.
  induction b as [|z b IH]; intros Hb; [reflexivity|]. cbn [neg map forallb existsb]. fold (neg b). rewrite IH by (intros y Hy; apply Hb; now right).
  destruct (Hb z (or_introl eq_refl)) as [->| ->]; reflexivity.
Qed.
Lemma connective_neg t b : t <> TEnum -> (forall z, In z b -> z = 0%Z \/ z = 1%Z) -> connective (other t) (neg b) = (1 - connective t b)%Z.
Proof.
  intros Ht Hb. destruct t; [congruence| |]; cbn [other connective]; [rewrite forallb_neg by exact Hb; now destruct (existsb _ b)|rewrite existsb_neg by exact Hb; now destruct (forallb _ b)].
Qed.
Lemma logical_configs_neg t k : t <> TEnum -> Permutation (logical_configs (other t) k) (map neg (logical_configs t k)).
Proof.
  intros Ht. assert (Nd : forall t, NoDup (logical_configs t k)).
  { intros t0. unfold logical_configs. apply NoDup_map_on; [apply NoDup_bools|]. intros x y _ _ E. now apply app_inj_tail in E. }
  assert (Ib : forall b, In b (bools k) -> forall z, In z b -> z = 0%Z \/ z = 1%Z) by (intros b Hb; now apply In_bools in Hb).
  apply NoDup_Permutation; [apply Nd| |].
  - apply NoDup_map_on; [apply Nd|]. intros x y _ _ E. rewrite <- (neg_neg x), E. apply neg_neg.
  - intros c. unfold logical_configs. rewrite map_map, !in_map_iff. split; intros [b [<- Hb]]; exists (neg b); (split; [|now apply In_bools_neg]).
    + assert (E : connective (other t) (neg (neg b)) = (1 - connective t (neg b))%Z) by (apply connective_neg; [exact Ht|apply Ib; now apply In_bools_neg]). rewrite neg_neg in E.
      rewrite E. unfold neg at 1. rewrite map_app. fold (neg (neg b)). now rewrite neg_neg.
    + rewrite (connective_neg t b Ht (Ib b Hb)). unfold neg at 2. now rewrite map_app.
Qed.

(** ** The factors of the two graphs *)
Lemma Forall2_maps {X Y Z} (P : Y -> Z -> Prop) (f : X -> Y) (g : X -> Z) l : (forall x, In x l -> P (f x) (g x)) -> Forall2 P (map f l) (map g l).
Proof. induction l as [|x l IH]; intros H; constructor; [apply H; now left|]. apply IH. intros y Hy. apply H. now right. Qed.
Lemma Forall2_at {X Y} (P : X -> Y -> Prop) l l' : Forall2 P l l' -> forall d d' i, i < length l -> P (nth i l d) (nth i l' d').
Proof. induction 1 as [|x y l l' H HF IH]; intros d d' i Hi; [cbn in Hi; lia|]. destruct i as [|i]; [exact H|]. apply IH. cbn in Hi. lia. Qed.
Lemma map_nth_seq {X Y} (h : X -> Y) (l : list X) d : map (fun c => h (nth c l d)) (seq 0 (length l)) = map h l.
Proof.
  rewrite <- (map_map (fun c => nth c l d) h). f_equal. apply (nth_ext _ _ d d); [now rewrite map_length, seq_length|]. intros n Hn. rewrite map_length, seq_length in Hn.
  rewrite (nth_map _ _ _ _ 0) by (now rewrite seq_length). now rewrite seq_nth.
Qed.
Section Places.
  Context (gs : per_type (list (fgroup R))).
  Notation fs := (graph_factors 0%R gs).
  Notation ne := (length (enum_factors gs)).
  Notation no := (length (logical_factors TOr gs)).
  Notation na := (length (logical_factors TAnd gs)).
  Lemma fs_length : length fs = ne + no + na.
  Proof. unfold graph_factors. rewrite !app_length, !map_length. lia. Qed.
  Lemma fs_enum f : f < ne -> factor_at fs f = factor_at (enum_factors gs) f.
  Proof. intros H. unfold factor_at, graph_factors. now rewrite app_nth1. Qed.
  Lemma fs_or i : i < no -> factor_at fs (ne + i) = logical_sf 0%R TOr (nth i (logical_factors TOr gs) []).
  Proof.
    intros H. unfold factor_at, graph_factors. rewrite app_nth2 by lia. replace (ne + i - ne) with i by lia. rewrite app_nth1 by (now rewrite map_length).
    now rewrite (nth_map _ _ _ _ []).
  Qed.
  Lemma fs_and i : i < na -> factor_at fs (ne + no + i) = logical_sf 0%R TAnd (nth i (logical_factors TAnd gs) []).
  Proof.
    intros H. unfold factor_at, graph_factors. rewrite app_nth2 by lia. rewrite app_nth2 by (rewrite map_length; lia). rewrite map_length. replace (ne + no + i - ne - no) with i by lia.
    now rewrite (nth_map _ _ _ _ []).
  Qed.
End Places.
Section Dual.
  Context (fl : variable -> bool) (gs gs' : per_type (list (fgroup R))).
  Hypothesis Hdual : dual fl gs gs'.
  Hypothesis Hcov : covers fl gs.
  Let fs := graph_factors 0%R gs.
  Let fs' := graph_factors 0%R gs'.
  Let p := dual_at gs.
  Notation wid := (fun _ u : nat => u).
  Notation t := (turn fl).
  Hypothesis Hcfg : configs_ok fs.
  Hypothesis Htwo : forall x, In x (sf_edges fs) -> fl x = true -> snd x = 2.

  Lemma dual_sizes : length (enum_factors gs') = length (enum_factors gs) /\ length (logical_factors TOr gs') = length (logical_factors TAnd gs) /\
    length (logical_factors TAnd gs') = length (logical_factors TOr gs).
  Proof. destruct Hdual as [H1 [H2 H3]]. rewrite H2, H3. split; [symmetry; exact (Forall2_len _ _ _ H1)|auto]. Qed.
  Lemma dual_length : length fs' = length fs.
  Proof. unfold fs, fs'. rewrite !fs_length. destruct dual_sizes as [-> [-> ->]]. lia. Qed.
  Lemma dual_lt f : f < length fs -> p f < length fs.
  Proof. unfold fs, p, dual_at. rewrite fs_length. intros H. destruct (Nat.ltb_spec f (length (enum_factors gs))); [lia|]. destruct (Nat.ltb_spec f (length (enum_factors gs) + length (logical_factors TOr gs))); lia. Qed.
  Lemma dual_inj f h : f < length fs -> h < length fs -> p f = p h -> f = h.
  Proof.
    unfold fs, p, dual_at. rewrite fs_length. intros Hf Hh.
    destruct (Nat.ltb_spec f (length (enum_factors gs))), (Nat.ltb_spec f (length (enum_factors gs) + length (logical_factors TOr gs))),
      (Nat.ltb_spec h (length (enum_factors gs))), (Nat.ltb_spec h (length (enum_factors gs) + length (logical_factors TOr gs))); lia.
  Qed.
  Lemma dual_cases f : f < length fs ->
    (f < length (enum_factors gs) /\ p f = f /\ sf_vars (factor_at fs' f) = sf_vars (factor_at fs f) /\ sf_configs (factor_at fs' f) = map (turned fl (sf_vars (factor_at fs f))) (sf_configs (factor_at fs f))) \/
    (exists ty vs, ty <> TEnum /\ length (enum_factors gs) <= f /\ length (enum_factors gs) <= p f /\
       factor_at fs f = logical_sf 0%R ty vs /\ factor_at fs' (p f) = logical_sf 0%R (other ty) vs /\ forall x, In x vs -> fl x = true).
  Proof.
    unfold fs at 1. rewrite fs_length. intros Hf. destruct Hdual as [H1 [H2 H3]]. destruct dual_sizes as [L1 [L2 L3]].
    unfold p, dual_at. destruct (Nat.ltb_spec f (length (enum_factors gs))) as [Hl|Hl].
    - left. split; [exact Hl|]. split; [reflexivity|]. unfold fs, fs'. rewrite !fs_enum by lia. exact (Forall2_at _ _ _ H1 _ _ f Hl).
    - right. destruct (Nat.ltb_spec f (length (enum_factors gs) + length (logical_factors TOr gs))) as [Ho|Ho].
      + set (i := f - length (enum_factors gs)). exists TOr, (nth i (logical_factors TOr gs) []). split; [discriminate|]. split; [exact Hl|]. split; [lia|]. unfold fs, fs'.
        replace f with (length (enum_factors gs) + i) by (unfold i; lia). rewrite fs_or by (unfold i; lia). split; [reflexivity|].
        replace (length (enum_factors gs) + i + length (logical_factors TAnd gs)) with (length (enum_factors gs') + length (logical_factors TOr gs') + i) by lia.
        rewrite fs_and by (unfold i; lia). rewrite H3. split; [reflexivity|]. intros x Hx. refine (Hcov _ x _ Hx). apply in_or_app. left. apply nth_In. unfold i. lia.
      + set (i := f - length (enum_factors gs) - length (logical_factors TOr gs)). exists TAnd, (nth i (logical_factors TAnd gs) []). split; [discriminate|]. split; [exact Hl|]. split; [lia|]. unfold fs, fs'.
        replace f with (length (enum_factors gs) + length (logical_factors TOr gs) + i) by (unfold i; lia). rewrite fs_and by (unfold i; lia). split; [reflexivity|].
        replace (length (enum_factors gs) + length (logical_factors TOr gs) + i - length (logical_factors TOr gs)) with (length (enum_factors gs') + i) by lia.
        rewrite fs_or by (unfold i; lia). rewrite H2. split; [reflexivity|]. intros x Hx. refine (Hcov _ x _ Hx). apply in_or_app. right. apply nth_In. unfold i. lia.
  Qed.
  Lemma dual_vars f : f < length fs -> sf_vars (factor_at fs' (p f)) = sf_vars (factor_at fs f).
  Proof. intros Hf. destruct (dual_cases f Hf) as [[_ [E [Hv _]]]|[ty [vs [_ [_ [_ [E1 [E2 _]]]]]]]]; [now rewrite E|now rewrite E1, E2]. Qed.
  Lemma dual_embeds : embeds fs fs' p wid (fun x => x) t.
  Proof.
    split; [|intros x Hx; split; [reflexivity|apply perm_below_turn; now apply Htwo]]. intros f Hf. unfold arity, var_at. rewrite (dual_vars f Hf).
    split; [rewrite dual_length; now apply dual_lt|]. split; [reflexivity|]. split; [apply perm_below_id|auto].
  Qed.
  Lemma dual_slots x : Permutation (map (place p wid) (slots_of fs x)) (slots_of fs' x).
  Proof.
    apply NoDup_Permutation; [|apply NoDup_filter, NoDup_slots|].
    - apply NoDup_map_on; [apply NoDup_filter, NoDup_slots|]. intros [f u] [h v] Hf Hh E. apply In_slots_of in Hf, Hh. unfold place in E. cbn [fst snd] in E.
      injection E as E ->. apply dual_inj in E; [now subst|apply Hf|apply Hh].
    - intros [f' u]. rewrite in_map_iff. split.
      + intros [[f v] [E Hi]]. unfold place in E. cbn [fst snd] in E. injection E as <- ->. apply In_slots_of in Hi. destruct Hi as [I1 [I2 I3]]. apply In_slots_of. unfold arity, var_at in *. rewrite (dual_vars f I1).
        split; [rewrite dual_length; now apply dual_lt|]. now split.
      + intros Hi. apply In_slots_of in Hi. destruct Hi as [I1 [I2 I3]]. rewrite dual_length in I1.
        assert (Hs : bSurjective (length fs) p) by (apply bInjective_bSurjective; [exact dual_lt|exact dual_inj]). destruct (Hs f' I1) as [f [Hf <-]].
        exists (f, u). split; [reflexivity|]. apply In_slots_of. unfold arity, var_at in *. rewrite (dual_vars f Hf) in *. auto.
  Qed.
  Context (lp lp' : list R).
  Let pots := graph_pots gs lp.
  Let pots' := graph_pots gs' lp'.
  Hypothesis Hpots : forall f k, f < length (enum_factors gs) -> k < length (sf_configs (factor_at fs f)) -> pots' f k = pots f k.
  Lemma nth_turned vs cfg u : u < length vs -> length cfg = length vs -> nth u (turned fl vs cfg) 0%Z = Z.of_nat (t (nth u vs (0%Z, 0)) (Z.to_nat (nth u cfg 0%Z))).
  Proof.
    intros Hu Hl. unfold turned. rewrite (nth_map _ _ _ _ ((0%Z, 0), 0%Z)) by (rewrite combine_length; lia). now rewrite combine_nth.
  Qed.
  Lemma dual_factor f : f < length fs -> same_factor fs fs' p wid t pots pots' f.
  Proof.
    intros Hf. destruct (dual_cases f Hf) as [[Hl [E [Hv Hc]]]|[ty [vs [Ht [Hl [Hl' [E1 [E2 Hvs]]]]]]]].
    - exists (table fs' pots' (p f)). split; [apply Permutation_refl|]. rewrite E. unfold table. rewrite Hc, map_length. apply Forall2_maps. intros c Hi. apply in_seq in Hi. split.
      + cbn [snd]. apply Hpots; [exact Hl|lia].
      + intros u Hu. cbn [fst]. destruct (Hcfg f c u Hf ltac:(lia)) as [Hlen _]. rewrite (nth_map _ _ _ _ []) by lia. rewrite nth_turned; [|exact Hu|exact Hlen]. now rewrite Nat2Z.id.
    - assert (T1 : table fs pots f = map (fun cfg => (cfg, 0%R)) (logical_configs ty (length vs - 1))).
      { unfold table. rewrite E1. cbn [logical_sf sf_configs]. rewrite <- (map_nth_seq (fun cfg => (cfg, 0%R)) _ []). apply map_ext. intros c. f_equal. unfold pots, graph_pots.
        destruct (Nat.ltb_spec f (length (enum_factors gs))); [lia|reflexivity]. }
      assert (T2 : table fs' pots' (p f) = map (fun cfg => (cfg, 0%R)) (logical_configs (other ty) (length vs - 1))).
      { unfold table. rewrite E2. cbn [logical_sf sf_configs]. rewrite <- (map_nth_seq (fun cfg => (cfg, 0%R)) _ []). apply map_ext. intros c. f_equal. unfold pots', graph_pots.
        rewrite (proj1 dual_sizes). destruct (Nat.ltb_spec (p f) (length (enum_factors gs))); [lia|reflexivity]. }
      exists (map (fun r => (neg (fst r), snd r)) (table fs pots f)). split.
      + rewrite T1, T2, map_map. cbn [fst snd]. rewrite <- (map_map neg (fun cfg => (cfg, 0%R))). apply Permutation_map. now apply logical_configs_neg.
      + apply Forall2_map_r. intros rw Hrw. split; [reflexivity|]. intros u Hu. cbn [fst]. unfold table in Hrw. apply in_map_iff in Hrw. destruct Hrw as [c [<- Hi]]. apply in_seq in Hi. cbn [fst].
        destruct (Hcfg f c u Hf ltac:(lia)) as [Hlen Hrange]. specialize (Hrange Hu). unfold neg. rewrite (nth_map _ _ _ _ 0%Z) by lia.
        assert (Hx : fl (var_at fs f u) = true) by (apply Hvs; unfold var_at, arity in *; rewrite E1 in *; cbn [logical_sf sf_vars] in *; now apply nth_In).
        rewrite (Htwo (var_at fs f u)) in Hrange; [|now apply var_in_edges|exact Hx]. unfold turn. rewrite Hx. lia.
  Qed.
End Dual.

(** ** Runs *)
Section Two.
  Context (vgs : list vgroup) (g g' : fgraph R) (T : R) (c c' : bp_ctx R).
  Hypothesis Hok : groups_ok vgs.
  Hypothesis Hr : reachable vgs g.
  Hypothesis Hwf : wf_groups (gr_groups g).
  Hypothesis Hbp : bp_of g T c.
  Hypothesis Hr' : reachable vgs g'.
  Hypothesis Hwf' : wf_groups (gr_groups g').
  Hypothesis Hbp' : bp_of g' T c'.
  Context (a a' : bp_arrays R).
  Hypothesis Ha : arrays_of c a.
  Hypothesis Ha' : arrays_of c' a'.
  Let fs := graph_factors 0%R (gr_groups g).
  Let fs' := graph_factors 0%R (gr_groups g').
  Let pots := graph_pots (gr_groups g) (ba_log_potentials a).
  Let pots' := graph_pots (gr_groups g') (ba_log_potentials a').
  Let ne := length (enum_factors (gr_groups g)).
  Let ne' := length (enum_factors (gr_groups g')).
  Let lens := map snd (sf_edges fs).
  Let lens' := map snd (sf_edges fs').
  Let ev := read_ev (gr_vars_to_starts g) (ba_evidence a).
  Let ev' := read_ev (gr_vars_to_starts g') (ba_evidence a').
  Let msgs b := read_msgs fs (ba_ftov_msgs b).
  Let msgs' b := read_msgs fs' (ba_ftov_msgs b).
  Context (d B P B' P' : R) (D K D' K' : nat).
  Hypothesis HT : (0 <= T)%R.
  Hypothesis Hd : (0 <= d <= 1)%R.
  Hypothesis M : moderate fs pots ne ev B P D K.
  Hypothesis M' : moderate fs' pots' ne' ev' B' P' D' K'.
  Hypothesis Hsup : supported lens.
  Hypothesis Hsup' : supported lens'.
  Hypothesis Hfl : above_floor lens (ba_ftov_msgs a).
  Hypothesis Hfl' : above_floor lens' (ba_ftov_msgs a').
  Context (fl : variable -> bool).
  Hypothesis Hdual : dual fl (gr_groups g) (gr_groups g').
  Hypothesis Hcov : covers fl (gr_groups g).
  Hypothesis Htwo : forall x, In x (all_vars vgs) -> fl x = true -> snd x = 2.
  Hypothesis Hpots : forall f k, f < ne -> k < length (sf_configs (factor_at fs f)) -> pots' f k = pots f k.
  Hypothesis Hev : forall x s, In x (all_vars vgs) -> s < snd x -> ev' x (turn fl x s) = ev x s.
  Let p := dual_at (gr_groups g).
  Hypothesis Hmsg : forall f u s, f < length fs -> u < arity fs f -> s < snd (var_at fs f u) -> msgs' a' (p f) u (turn fl (var_at fs f u) s) = msgs a f u s.

  Lemma dual_two x : In x (sf_edges fs) -> fl x = true -> snd x = 2.
  Proof. intros Hx. apply Htwo. exact (edges_vars vgs g T c Hok Hr Hwf Hbp x Hx). Qed.
  Lemma dual_var x : In x (all_vars vgs) -> same_var fs fs' p (fun _ u => u) (fun x => x) (turn fl) ev ev' x.
  Proof. intros Hx. split; [exact (dual_slots fl (gr_groups g) (gr_groups g') Hdual Hcov x)|]. intros s Hs. now apply Hev. Qed.
  Lemma C61_messages_lemma n f u s : f < length fs -> u < arity fs f -> s < snd (var_at fs f u) ->
    msgs' (run_bp c' a' n d) (p f) u (turn fl (var_at fs f u) s) = msgs (run_bp c a n d) f u s.
  Proof.
    intros Hf Hu Hs.
    refine (C54_messages_lemma vgs vgs g g' T c c' Hok Hr Hwf Hbp Hok Hr' Hwf' Hbp' a a' Ha Ha' d B P B' P' D K D' K' HT Hd M M' Hsup Hsup' Hfl Hfl'
      p (fun _ u => u) (fun x => x) (turn fl) (dual_embeds fl (gr_groups g) (gr_groups g') Hdual Hcov dual_two) n f u Hf Hu _ s Hs).
    apply all_same; [| | |exact Hf|exact Hu].
    - intros h Hh. exact (dual_factor fl (gr_groups g) (gr_groups g') Hdual Hcov (graph_configs_ok _ Hwf) dual_two _ _ Hpots h Hh).
    - intros x Hx. apply dual_var. exact (edges_vars vgs g T c Hok Hr Hwf Hbp x Hx).
    - intros h v Hh Hv i Hi. now apply Hmsg.
  Qed.
  Lemma C61_beliefs_lemma :
    (forall gr k, In gr vgs -> In k (vg_num_states gr) -> 0 < k) -> (forall gr, In gr vgs -> one_state gr = false) ->
    forall n, exists b q b' q', get_beliefs c (run_bp c a n d) = Ok b /\ decode_map_states b = Ok q /\
      get_beliefs c' (run_bp c' a' n d) = Ok b' /\ decode_map_states b' = Ok q' /\
    forall gr, In gr vgs -> exists e y e' y',
      dget vg_eqb gr b = Some e /\ dget vg_eqb gr q = Some y /\ dget vg_eqb gr b' = Some e' /\ dget vg_eqb gr q' = Some y' /\
    forall i x, nth_error (vg_variables gr) i = Some x ->
      (forall s, s < snd x -> nth_error (row gr e' i) (turn fl x s) = nth_error (row gr e i) s) /\
      exists s s', cell gr y i = [s] /\ cell gr y' i = [s'] /\
        (fl x = false \/ nth_error (row gr e i) 0 <> nth_error (row gr e i) 1 -> s' = turn fl x s).
  Proof.
    intros Hpos Hone n.
    pose proof (LemStable.run_arrays vgs g T c Hok Hr Hwf Hbp d a n Ha) as Hra. pose proof (LemStable.run_arrays vgs g' T c' Hok Hr' Hwf' Hbp' d a' n Ha') as Hra'.
    destruct (C34_lemma vgs g T c Hok Hr Hwf Hbp _ Hra Hpos Hone) as [b [q [Eb [Eq [_ Dq]]]]].
    destruct (C34_lemma vgs g' T c' Hok Hr' Hwf' Hbp' _ Hra' Hpos Hone) as [b' [q' [Eb' [Eq' [_ Dq']]]]].
    destruct (C33_lemma vgs g T c Hok Hr Hwf Hbp _ Hra Hpos) as [b2 [Eb2 [_ Db]]]. rewrite Eb in Eb2. injection Eb2 as <-.
    destruct (C33_lemma vgs g' T c' Hok Hr' Hwf' Hbp' _ Hra' Hpos) as [b2 [Eb2 [_ Db']]]. rewrite Eb' in Eb2. injection Eb2 as <-.
    exists b, q, b', q'. do 4 (split; [assumption|]). intros gr Hg.
    destruct (Dq gr Hg) as [y [Ey [_ Cy]]]. destruct (Dq' gr Hg) as [y' [Ey' [_ Cy']]]. destruct (Db gr Hg) as [e [Ee [_ Re]]]. destruct (Db' gr Hg) as [e' [Ee' [_ Re']]].
    exists e, y, e', y'. do 4 (split; [assumption|]). intros i x Hi.
    assert (Hx : In x (all_vars vgs)) by (unfold all_vars; apply in_concat; exists (vg_variables gr); split; [now apply in_map|]; now apply nth_error_In in Hi).
    set (bel := text_belief fs ev (msgs (run_bp c a n d)) x). set (bel' := text_belief fs' ev' (msgs' (run_bp c' a' n d)) x).
    assert (HB : forall s, s < snd x -> bel' (turn fl x s) = bel s).
    { intros s Hs. refine (same_belief fs fs' p (fun _ u => u) (fun x => x) (turn fl) ev ev' _ _ x s _ _ Hs).
      - now apply dual_var.
      - intros f u Hfu. apply In_slots_of in Hfu. destruct Hfu as [Hf [Hu _]]. intros k Hk. now apply C61_messages_lemma. }
    assert (Hn2 : forall (h : nat -> R) k z, z < snd x -> nth_error (map (fun z => Fin (h z)) (seq 0 (snd x)) ++ repeat NInf k) z = Some (Fin (h z))).
    { intros h k z Hz. rewrite nth_error_app1 by (rewrite map_length, seq_length; exact Hz). apply (map_nth_error (fun z => Fin (h z)) z (seq 0 (snd x))).
      rewrite (nth_error_nth' _ 0) by (rewrite seq_length; exact Hz). now rewrite seq_nth. }
    assert (Ht : forall s, s < snd x -> turn fl x s < snd x) by (intros s Hs; unfold turn; destruct (fl x) eqn:F; [rewrite (Htwo x Hx F); lia|exact Hs]).
    split.
    - intros s Hs. rewrite (Re i x Hi), (Re' i x Hi). refine (eq_trans (Hn2 bel' _ _ (Ht s Hs)) (eq_trans _ (eq_sym (Hn2 bel _ _ Hs)))). now rewrite HB.
    - destruct (Cy i x Hi) as [s [Es Fs]]. destruct (Cy' i x Hi) as [s' [Es' Fs']]. exists s, s'. split; [exact Es|]. split; [exact Es'|].
      change (first_best bel (snd x) s) in Fs. change (first_best bel' (snd x) s') in Fs'. intros Hc. unfold turn in HB |- *. destruct (fl x) eqn:F.
      + destruct Hc as [Hc|Hc]; [discriminate|]. pose proof (Htwo x Hx F) as E2. rewrite (Re i x Hi) in Hc.
        assert (Hne : bel 0 <> bel 1). { intros E. apply Hc. refine (eq_trans (Hn2 bel _ 0 _) (eq_trans _ (eq_sym (Hn2 bel _ 1 _)))); [lia| |lia]. now rewrite E. }
        destruct Fs as [S1 [S2 _]], Fs' as [S1' [S2' _]]. rewrite E2 in *. pose proof (HB 0 ltac:(lia)) as B0. pose proof (HB 1 ltac:(lia)) as B1. cbn [Nat.sub] in B0, B1.
        destruct s as [|[|s]]; [| |lia]; (destruct s' as [|[|s']]; [| |lia]); try reflexivity; exfalso; apply Hne.
        * pose proof (S2 1 ltac:(lia)). pose proof (S2' 1 ltac:(lia)). lra.
        * pose proof (S2 0 ltac:(lia)). pose proof (S2' 0 ltac:(lia)). lra.
      + exact (first_best_unique bel bel' (snd x) s s' HB Fs Fs').
  Qed.
End Two.
