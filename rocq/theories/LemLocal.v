(** * Proofs about the inputs a message depends on (C54). *)
From Verif Require Import NumPy Lists VGroup FGraph BPState BP SpecVGroup SpecFGraph SpecFactor SpecAdd SpecWiring SpecState SpecBP SpecText SpecBeliefs SpecPerm SpecLocal.
From Verif Require Import LemFactor LemFGraph LemAdd LemWiring LemGraph LemState LemNum LemNorm LemVtoF LemLogBP LemText LemRun LemBeliefs LemShift LemPerm LemStable.
From Coq Require Import Reals Lra Lia Permutation FinFun.
Local Open Scope nat_scope.

Lemma perm_below_id n : perm_below n (fun i => i).
Proof. split; auto. Qed.
Lemma perm_below_onto n h : perm_below n h -> forall j, j < n -> exists i, i < n /\ h i = j.
Proof. intros [H1 H2]. apply (bInjective_bSurjective (f := h) H1). exact H2. Qed.
Lemma perm_below_seq n h : perm_below n h -> Permutation (map h (seq 0 n)) (seq 0 n).
Proof.
  intros H. apply NoDup_Permutation.
  - apply NoDup_map_on; [apply seq_NoDup|]. intros x y Hx Hy. apply in_seq in Hx, Hy. apply H; lia.
  - apply seq_NoDup.
  - intros j. rewrite in_map_iff, in_seq. split.
    + intros [i [<- Hi]]. apply in_seq in Hi. destruct H as [H _]. specialize (H i). lia.
    + intros Hj. destruct (perm_below_onto n h H j) as [i [Hi E]]; [lia|]. exists i. split; [exact E|]. apply in_seq. lia.
Qed.
Lemma perm_below_others n h u : perm_below n h -> u < n ->
  Permutation (map h (filter (fun v => negb (v =? u)) (seq 0 n))) (filter (fun v => negb (v =? h u)) (seq 0 n)).
Proof.
  intros H Hu. apply Permutation_trans with (filter (fun v => negb (v =? h u)) (map h (seq 0 n))); [|now apply filter_perm, perm_below_seq].
  rewrite LemNum.filter_map. erewrite (filter_ext_in _ _ (seq 0 n)); [apply Permutation_refl|].
  intros v Hv. apply in_seq in Hv. f_equal. destruct (Nat.eqb_spec v u) as [E|E], (Nat.eqb_spec (h v) (h u)) as [E2|E2]; try reflexivity.
  - subst. now contradiction E2.
  - apply H in E2; [contradiction|lia|lia].
Qed.

(** ** Textbook messages *)
Section Text.
  Context {A : Type} (fs fs' : list (sfactor A)).
  Context (p : nat -> nat) (w : nat -> nat -> nat) (r : variable -> variable) (t : variable -> nat -> nat).
  Hypothesis Hemb : embeds fs fs' p w r t.
  Context (pots pots' : nat -> nat -> R) (ev ev' : variable -> nat -> R) (m0 m0' : msg).
  Hypothesis Hcfg : configs_ok fs.
  Hypothesis Hcfg' : configs_ok fs'.
  Notation same := (same_msg fs p w t).
  Notation samev := (same_var fs fs' p w r t ev ev').
  Notation samef := (same_factor fs fs' p w t pots pots').

  Lemma emb_states f u : f < length fs -> u < arity fs f -> snd (r (var_at fs f u)) = snd (var_at fs f u) /\ perm_below (snd (var_at fs f u)) (t (var_at fs f u)).
  Proof. intros Hf Hu. apply (proj2 Hemb). now apply var_in_edges. Qed.
  Lemma emb_var f u : f < length fs -> u < arity fs f -> var_at fs' (p f) (w f u) = r (var_at fs f u).
  Proof. intros Hf Hu. now apply (proj1 Hemb). Qed.

  Lemma same_normal m m' f u : f < length fs -> u < arity fs f -> same m m' f u -> same (normal fs m) (normal fs' m') f u.
  Proof.
    intros Hf Hu H s Hs. unfold normal. rewrite (H s Hs). rewrite (emb_var f u Hf Hu). destruct (emb_states f u Hf Hu) as [-> Ht]. apply f_equal, f_equal.
    apply rmaxs_perm. apply Permutation_trans with (map (m' (p f) (w f u)) (map (t (var_at fs f u)) (seq 0 (snd (var_at fs f u))))).
    - apply Permutation_map, Permutation_sym, perm_below_seq. exact Ht.
    - rewrite map_map. erewrite map_ext_in; [apply Permutation_refl|]. intros i Hi. apply in_seq in Hi. apply H. lia.
  Qed.
  Lemma same_damp d m m' n n' f u : same m m' f u -> same n n' f u -> same (damp d m n) (damp d m' n') f u.
  Proof. intros H1 H2 s Hs. unfold damp. now rewrite H1, H2. Qed.
  Lemma place_inj x a b : samev x -> In a (slots_of fs x) -> In b (slots_of fs x) -> place p w a = place p w b -> a = b.
  Proof.
    intros [H _] Ha Hb E. assert (Hn : NoDup (map (place p w) (slots_of fs x))).
    { apply (Permutation_NoDup (Permutation_sym H)). apply NoDup_filter, NoDup_slots. }
    clear - Hn Ha Hb E. induction (slots_of fs x) as [|c l IH]; [destruct Ha|]. cbn [map] in Hn. inversion Hn as [|c' l' Hc Hl]; subst.
    destruct Ha as [->|Ha], Hb as [->|Hb]; [reflexivity| | |auto].
    - exfalso. apply Hc. rewrite E. now apply in_map.
    - exfalso. apply Hc. rewrite <- E. now apply in_map.
  Qed.
  Lemma same_var_to_fac m m' f u : f < length fs -> u < arity fs f -> samev (var_at fs f u) ->
    (forall g j, In (g, j) (slots_of fs (var_at fs f u)) -> (g, j) <> (f, u) -> same m m' g j) ->
    same (var_to_fac fs ev m) (var_to_fac fs' ev' m') f u.
  Proof.
    intros Hf Hu Hx Ho s Hs. unfold var_to_fac. rewrite (emb_var f u Hf Hu). set (x := var_at fs f u) in *. rewrite (proj2 Hx s Hs). f_equal.
    assert (Hfu : In (f, u) (slots_of fs x)) by (apply In_slots_of; auto).
    assert (Hp : Permutation (map (place p w) (filter (fun gj => negb (slot_eqb gj (f, u))) (slots_of fs x))) (filter (fun gj => negb (slot_eqb gj (p f, w f u))) (slots_of fs' (r x)))).
    { apply Permutation_trans with (filter (fun gj => negb (slot_eqb gj (p f, w f u))) (map (place p w) (slots_of fs x))); [|apply filter_perm, (proj1 Hx)].
      rewrite LemNum.filter_map. erewrite (filter_ext_in _ _ (slots_of fs x)); [apply Permutation_refl|]. intros a Ha. f_equal.
      change (p f, w f u) with (place p w (f, u)).
      destruct (slot_eqb a (f, u)) eqn:E1, (slot_eqb (place p w a) (place p w (f, u))) eqn:E2; try reflexivity.
      - apply slot_eqb_eq in E1. subst a. assert (X : slot_eqb (place p w (f, u)) (place p w (f, u)) = true) by now apply slot_eqb_eq. congruence.
      - apply slot_eqb_eq in E2. apply (place_inj x a (f, u) Hx Ha Hfu) in E2. assert (X : slot_eqb a (f, u) = true) by now apply slot_eqb_eq. congruence. }
    rewrite <- (rsum_perm _ _ (Permutation_map _ Hp)), map_map. apply rsum_ext. intros [g j] Hi. apply filter_In in Hi. destruct Hi as [Hi Hne].
    cbn [place fst snd]. assert (Hd : (g, j) <> (f, u)) by (intros E; apply slot_eqb_eq in E; rewrite E in Hne; discriminate).
    pose proof (proj1 (In_slots_of fs x g j) Hi) as [_ [_ E]]. specialize (Ho g j Hi Hd s). rewrite E in Ho. now apply Ho.
  Qed.

  Lemma same_rows v v' f u s l l' : f < length fs -> u < arity fs f -> s < snd (var_at fs f u) ->
    (forall k, k < arity fs f -> k <> u -> same v v' f k) ->
    (forall a, In a l -> forall k, k < arity fs f -> Z.to_nat (nth k (fst a) 0%Z) < snd (var_at fs f k)) ->
    Forall2 (moved fs w t f) l l' ->
    map (row_score (v' (p f)) (arity fs f) (w f u)) (filter (row_at (w f u) (t (var_at fs f u) s)) l')
    = map (row_score (v f) (arity fs f) u) (filter (row_at u s) l).
  Proof.
    intros Hf Hu Hs Hv Hl H. induction H as [|a b l l' [M1 M2] H IH]; [reflexivity|].
    specialize (IH (fun c Hc => Hl c (or_intror Hc))). specialize (Hl a (or_introl eq_refl)). cbn [filter].
    assert (E : row_at (w f u) (t (var_at fs f u) s) b = row_at u s a).
    { unfold row_at. rewrite (M2 u Hu). destruct (emb_states f u Hf Hu) as [_ [_ Inj]].
      destruct (Nat.eqb_spec (t (var_at fs f u) (Z.to_nat (nth u (fst a) 0%Z))) (t (var_at fs f u) s)) as [E|E], (Nat.eqb_spec (Z.to_nat (nth u (fst a) 0%Z)) s) as [E2|E2]; try reflexivity.
      - apply Inj in E; [contradiction|now apply Hl|exact Hs].
      - rewrite E2 in E. now contradiction E. }
    rewrite E. destruct (row_at u s a); [|exact IH]. cbn [map]. f_equal; [|exact IH]. unfold row_score. rewrite M1. f_equal.
    destruct (proj1 Hemb f Hf) as [_ [_ [Hw _]]].
    rewrite <- (rsum_perm _ _ (Permutation_map _ (perm_below_others _ _ u Hw Hu))), map_map. apply rsum_ext. intros k Hk. apply filter_In in Hk. destruct Hk as [Hk Hne]. apply in_seq in Hk.
    assert (Hne' : k <> u) by (intros ->; rewrite Nat.eqb_refl in Hne; discriminate).
    rewrite M2 by lia. apply (Hv k); [lia|exact Hne'|]. apply Hl. lia.
  Qed.
  Lemma same_scores v v' f u s : f < length fs -> u < arity fs f -> s < snd (var_at fs f u) -> samef f -> (forall k, k < arity fs f -> k <> u -> same v v' f k) ->
    Permutation (map (fun c => score_but fs' pots' v' (p f) c (w f u)) (choices fs' (p f) (w f u) (t (var_at fs f u) s)))
                (map (fun c => score_but fs pots v f c u) (choices fs f u s)).
  Proof.
    intros Hf Hu Hs [l [Hp Hm]] Hv.
    assert (Hl : forall a, In a (table fs pots f) -> forall k, k < arity fs f -> Z.to_nat (nth k (fst a) 0%Z) < snd (var_at fs f k)).
    { intros a Ha k Hk. unfold table in Ha. apply in_map_iff in Ha. destruct Ha as [c [<- Hc]]. apply in_seq in Hc. cbn [fst]. apply (config_ok fs Hcfg f c k); [exact Hf|lia|exact Hk]. }
    rewrite !scores_table. destruct (proj1 Hemb f Hf) as [_ [-> _]]. rewrite <- (same_rows v v' f u s _ l Hf Hu Hs Hv Hl Hm).
    apply Permutation_map, filter_perm. exact Hp.
  Qed.
  Lemma same_fac_to_var T v v' f u : f < length fs -> u < arity fs f -> samef f -> (forall k, k < arity fs f -> k <> u -> same v v' f k) ->
    same (fac_to_var fs pots T v) (fac_to_var fs' pots' T v') f u.
  Proof.
    intros Hf Hu Hsf Hv s Hs. pose proof (same_scores v v' f u s Hf Hu Hs Hsf Hv) as HP.
    unfold fac_to_var. destruct (Req_EM_T T 0) as [HT|HT]; unfold fac_to_var_max, fac_to_var_soft.
    - now apply rmaxs_perm.
    - f_equal. f_equal. apply (Permutation_map (fun x => exp (x / T))) in HP. rewrite !map_map in HP. now apply rsum_perm.
  Qed.
  Lemma same_text_bp T d n f u : f < length fs -> u < arity fs f ->
    same_within fs fs' p w r t pots pots' ev ev' m0 m0' n f u ->
    same (text_bp fs pots T d ev m0 n) (text_bp fs' pots' T d ev' m0' n) f u.
  Proof.
    revert f u. induction n as [|n IH]; intros f u Hf Hu H; [now apply same_normal|].
    change (same (text_step fs pots T d ev (text_bp fs pots T d ev m0 n)) (text_step fs' pots' T d ev' (text_bp fs' pots' T d ev' m0' n)) f u).
    cbn [same_within] in H. destruct H as [H1 [H2 H3]]. unfold text_step. apply same_normal; [exact Hf|exact Hu|]. apply same_damp; [now apply IH|].
    apply same_fac_to_var; [exact Hf|exact Hu|exact H2|]. intros k Hk Hne. destruct (H3 k Hk Hne) as [H4 H5].
    apply same_var_to_fac; [exact Hf|exact Hk|exact H4|]. intros g j Hi Hd. pose proof (proj1 (In_slots_of fs _ g j) Hi) as [Hg [Hj _]]. apply IH; auto.
  Qed.
  Lemma same_belief m m' x s : samev x -> (forall f u, In (f, u) (slots_of fs x) -> same m m' f u) -> s < snd x ->
    text_belief fs' ev' m' (r x) (t x s) = text_belief fs ev m x s.
  Proof.
    intros Hx Hm Hs. unfold text_belief. rewrite (proj2 Hx s Hs). f_equal. rewrite <- (rsum_perm _ _ (Permutation_map _ (proj1 Hx))), map_map.
    apply rsum_ext. intros [g j] Hi. cbn [place fst snd]. pose proof (proj1 (In_slots_of fs x g j) Hi) as [_ [_ E]]. specialize (Hm g j Hi s). rewrite E in Hm. now apply Hm.
  Qed.
End Text.

(** ** Distance *)
Section Distance.
  Context {A : Type} (fs fs' : list (sfactor A)).
  Lemma within_mono x n k y : n <= k -> within fs x n y -> within fs x k y.
  Proof.
    intros Hk H. revert k Hk. induction H as [n|n y z f H IH Hf Hy Hz]; intros k Hk; [constructor|].
    destruct k as [|k]; [lia|]. apply (within_step fs x k y z f); auto. apply IH. lia.
  Qed.
  Lemma within_next x y n z f : f < length fs -> In x (sf_vars (factor_at fs f)) -> In y (sf_vars (factor_at fs f)) -> within fs y n z -> within fs x (S n) z.
  Proof.
    intros Hf Hx Hy H. induction H as [n|n z z' h H IH Hh Hz Hz'].
    - apply (within_step fs x n x y f); auto. constructor.
    - now apply (within_step fs x (S n) z z' h).
  Qed.
  Lemma var_at_In f u : u < arity fs f -> In (var_at fs f u) (sf_vars (factor_at fs f)).
  Proof. intros Hu. now apply nth_In. Qed.
  Context (p : nat -> nat) (w : nat -> nat -> nat) (r : variable -> variable) (t : variable -> nat -> nat).
  Context (pots pots' : nat -> nat -> R) (ev ev' : variable -> nat -> R) (m0 m0' : msg).
  Lemma around_same n x :
    (forall y, within fs x n y -> same_var fs fs' p w r t ev ev' y) ->
    (forall f u, f < length fs -> u < arity fs f -> within fs x n (var_at fs f u) -> same_msg fs p w t m0 m0' f u) ->
    (forall k f y, k < n -> f < length fs -> In y (sf_vars (factor_at fs f)) -> within fs x k y -> same_factor fs fs' p w t pots pots' f) ->
    forall f u, In (f, u) (slots_of fs x) -> same_within fs fs' p w r t pots pots' ev ev' m0 m0' n f u.
  Proof.
    revert x. induction n as [|n IH]; intros x Hv Hm Hf f u Hi; apply In_slots_of in Hi; destruct Hi as [H1 [H2 H3]].
    - cbn [same_within]. apply Hm; auto. rewrite H3. constructor.
    - cbn [same_within]. split; [|split].
      + apply (IH x); [| | |apply In_slots_of; auto].
        * intros y Hy. apply Hv. apply (within_mono x n); [lia|assumption].
        * intros g j Hg Hj Hw. apply Hm; auto. apply (within_mono x n); [lia|assumption].
        * intros k g y Hk. apply Hf. lia.
      + apply (Hf 0 f x); [lia|exact H1|rewrite <- H3; now apply var_at_In|constructor].
      + intros v Hlt Hne. set (y := var_at fs f v).
        assert (Hx : In x (sf_vars (factor_at fs f))) by (rewrite <- H3; now apply var_at_In). assert (Hy : In y (sf_vars (factor_at fs f))) by (now apply var_at_In).
        split; [apply Hv; apply (within_next x y n y f H1 Hx Hy); constructor|]. intros g j Hg _.
        apply (IH y); [| | |exact Hg].
        * intros z Hz. apply Hv. now apply (within_next x y n z f).
        * intros h i Hh Hi0 Hw. apply Hm; auto. now apply (within_next x y n _ f).
        * intros k h z Hk Hh Hz Hw. apply (Hf (S k) h z); [lia|exact Hh|exact Hz|]. now apply (within_next x y k z f).
  Qed.
  Lemma all_same n : (forall f, f < length fs -> same_factor fs fs' p w t pots pots' f) ->
    (forall x, In x (sf_edges fs) -> same_var fs fs' p w r t ev ev' x) ->
    (forall f u, f < length fs -> u < arity fs f -> same_msg fs p w t m0 m0' f u) ->
    forall f u, f < length fs -> u < arity fs f -> same_within fs fs' p w r t pots pots' ev ev' m0 m0' n f u.
  Proof.
    intros Hf Hv Hm. induction n as [|n IH]; intros f u H1 H2; cbn [same_within]; [now apply Hm|]. split; [now apply IH|]. split; [now apply Hf|].
    intros v Hlt _. split; [apply Hv; now apply var_in_edges|]. intros g j Hg _. apply In_slots_of in Hg. now apply IH.
  Qed.
End Distance.

(** ** Runs on two graphs *)
Lemma first_best_unique (b b' : nat -> R) n s s' : (forall i, i < n -> b' i = b i) -> first_best b n s -> first_best b' n s' -> s' = s.
Proof.
  intros E [H1 [H2 H3]] [K1 [K2 K3]]. destruct (Nat.lt_trichotomy s s') as [H|[H|H]]; [|auto|].
  - pose proof (K3 s ltac:(lia)). pose proof (H2 s' K1). rewrite !E in * by lia. lra.
  - pose proof (H3 s' ltac:(lia)). pose proof (K2 s H1). rewrite !E in * by lia. lra.
Qed.
Section Runs.
  Context (vgs vgs' : list vgroup) (g g' : fgraph R) (T : R) (c c' : bp_ctx R).
  Hypothesis Hok : groups_ok vgs.
  Hypothesis Hr : reachable vgs g.
  Hypothesis Hwf : wf_groups (gr_groups g).
  Hypothesis Hbp : bp_of g T c.
  Hypothesis Hok' : groups_ok vgs'.
  Hypothesis Hr' : reachable vgs' g'.
  Hypothesis Hwf' : wf_groups (gr_groups g').
  Hypothesis Hbp' : bp_of g' T c'.
  Context (a a' : bp_arrays R).
  Hypothesis Ha : arrays_of c a.
  Hypothesis Ha' : arrays_of c' a'.
  Let fs := graph_factors 0%R (gr_groups g).
  Let fs' := graph_factors 0%R (gr_groups g').
  Let pots := graph_pots (gr_groups g) (ba_log_potentials a).
  Let pots' := graph_pots (gr_groups g') (ba_log_potentials a').
  Let ne := length (enum_factors (gr_groups g)).
  Let ne' := length (enum_factors (gr_groups g')).
  Let lens := map snd (sf_edges fs).
  Let lens' := map snd (sf_edges fs').
  Let ev := read_ev (gr_vars_to_starts g) (ba_evidence a).
  Let ev' := read_ev (gr_vars_to_starts g') (ba_evidence a').
  Let msgs b := read_msgs fs (ba_ftov_msgs b).
  Let msgs' b := read_msgs fs' (ba_ftov_msgs b).
  Context (d B P B' P' : R) (D K D' K' : nat).
  Hypothesis HT : (0 <= T)%R.
  Hypothesis Hd : (0 <= d <= 1)%R.
  Hypothesis M : moderate fs pots ne ev B P D K.
  Hypothesis M' : moderate fs' pots' ne' ev' B' P' D' K'.
  Hypothesis Hsup : supported lens.
  Hypothesis Hsup' : supported lens'.
  Hypothesis Hfl : above_floor lens (ba_ftov_msgs a).
  Hypothesis Hfl' : above_floor lens' (ba_ftov_msgs a').
  Context (p : nat -> nat) (w : nat -> nat -> nat) (r : variable -> variable) (t : variable -> nat -> nat).
  Hypothesis Hemb : embeds fs fs' p w r t.

  Lemma runs_text n : msg_eq fs (msgs (run_bp c a n d)) (text_bp fs pots T d ev (msgs a) n) /\
    msg_eq fs' (msgs' (run_bp c' a' n d)) (text_bp fs' pots' T d ev' (msgs' a') n).
  Proof.
    split; intros f u s Hf Hu Hs.
    - apply (C39_lemma vgs g T c Hok Hr Hwf Hbp a Ha d n Hsup); auto; intros i Hi.
      + now apply (above_floor_run vgs g T c Hok Hr Hwf Hbp a Ha B P D K M HT Hsup Hfl d Hd n).
      + apply (in_range_text g T Hwf a B P D K M).
    - apply (C39_lemma vgs' g' T c' Hok' Hr' Hwf' Hbp' a' Ha' d n Hsup'); auto; intros i Hi.
      + now apply (above_floor_run vgs' g' T c' Hok' Hr' Hwf' Hbp' a' Ha' B' P' D' K' M' HT Hsup' Hfl' d Hd n).
      + apply (in_range_text g' T Hwf' a' B' P' D' K' M').
  Qed.
  Lemma C54_messages_lemma n f u : f < length fs -> u < arity fs f ->
    same_within fs fs' p w r t pots pots' ev ev' (msgs a) (msgs' a') n f u ->
    same_msg fs p w t (msgs (run_bp c a n d)) (msgs' (run_bp c' a' n d)) f u.
  Proof.
    intros Hf Hu H s Hs. destruct (runs_text n) as [E E']. rewrite E by assumption.
    destruct (proj1 Hemb f Hf) as [H1 [H2 [H3 H4]]]. destruct (proj2 Hemb (var_at fs f u) (var_in_edges fs f u Hf Hu)) as [H5 H6].
    rewrite E'; [|exact H1|rewrite H2; now apply H3|rewrite (H4 u Hu), H5; now apply H6].
    apply (same_text_bp fs fs' p w r t Hemb); auto. now apply graph_configs_ok.
  Qed.
  Lemma C54_beliefs_lemma :
    (forall gr n, In gr vgs -> In n (vg_num_states gr) -> 0 < n) -> (forall gr, In gr vgs -> one_state gr = false) ->
    (forall gr n, In gr vgs' -> In n (vg_num_states gr) -> 0 < n) -> (forall gr, In gr vgs' -> one_state gr = false) ->
    forall n, exists b q b' q', get_beliefs c (run_bp c a n d) = Ok b /\ decode_map_states b = Ok q /\
      get_beliefs c' (run_bp c' a' n d) = Ok b' /\ decode_map_states b' = Ok q' /\
    forall gr gr', In gr vgs -> In gr' vgs' -> exists e y e' y',
      dget vg_eqb gr b = Some e /\ dget vg_eqb gr q = Some y /\ dget vg_eqb gr' b' = Some e' /\ dget vg_eqb gr' q' = Some y' /\
    forall i x i', nth_error (vg_variables gr) i = Some x -> nth_error (vg_variables gr') i' = Some (r x) ->
      snd (r x) = snd x -> perm_below (snd x) (t x) -> same_var fs fs' p w r t ev ev' x ->
      (forall f u, In (f, u) (slots_of fs x) -> same_within fs fs' p w r t pots pots' ev ev' (msgs a) (msgs' a') n f u) ->
      (forall s, s < snd x -> nth_error (row gr' e' i') (t x s) = nth_error (row gr e i) s) /\
      ((forall s, s < snd x -> t x s = s) -> cell gr' y' i' = cell gr y i).
  Proof.
    intros Hpos Hone Hpos' Hone' n.
    pose proof (LemStable.run_arrays vgs g T c Hok Hr Hwf Hbp d a n Ha) as Hra. pose proof (LemStable.run_arrays vgs' g' T c' Hok' Hr' Hwf' Hbp' d a' n Ha') as Hra'.
    destruct (C34_lemma vgs g T c Hok Hr Hwf Hbp _ Hra Hpos Hone) as [b [q [Eb [Eq [_ Dq]]]]].
    destruct (C34_lemma vgs' g' T c' Hok' Hr' Hwf' Hbp' _ Hra' Hpos' Hone') as [b' [q' [Eb' [Eq' [_ Dq']]]]].
    destruct (C33_lemma vgs g T c Hok Hr Hwf Hbp _ Hra Hpos) as [b2 [Eb2 [_ Db]]]. rewrite Eb in Eb2. injection Eb2 as <-.
    destruct (C33_lemma vgs' g' T c' Hok' Hr' Hwf' Hbp' _ Hra' Hpos') as [b2 [Eb2 [_ Db']]]. rewrite Eb' in Eb2. injection Eb2 as <-.
    exists b, q, b', q'. do 4 (split; [assumption|]). intros gr gr' Hg Hg'.
    destruct (Dq gr Hg) as [y [Ey [_ Cy]]]. destruct (Dq' gr' Hg') as [y' [Ey' [_ Cy']]]. destruct (Db gr Hg) as [e [Ee [_ Re]]]. destruct (Db' gr' Hg') as [e' [Ee' [_ Re']]].
    exists e, y, e', y'. do 4 (split; [assumption|]). intros i x i' Hi Hi' Hn Ht Hv Hw.
    set (bel := text_belief fs ev (msgs (run_bp c a n d)) x). set (bel' := text_belief fs' ev' (msgs' (run_bp c' a' n d)) (r x)).
    assert (HB : forall s, s < snd x -> bel' (t x s) = bel s).
    { intros s Hs. apply (same_belief fs fs' p w r t ev ev'); [exact Hv| |exact Hs]. intros f u Hfu. pose proof (proj1 (In_slots_of fs x f u) Hfu) as [Hf [Hu _]].
      apply C54_messages_lemma; auto. }
    split.
    - intros s Hs. rewrite (Re i x Hi), (Re' i' (r x) Hi'), Hn. change (text_belief (graph_factors 0%R (gr_groups g)) _ _ x) with bel. change (text_belief (graph_factors 0%R (gr_groups g')) _ _ (r x)) with bel'.
      assert (Hn2 : forall (h : nat -> R) k z, z < snd x -> nth_error (map (fun z => Fin (h z)) (seq 0 (snd x)) ++ repeat NInf k) z = Some (Fin (h z))).
      { intros h k z Hz. rewrite nth_error_app1 by (rewrite map_length, seq_length; exact Hz). apply (map_nth_error (fun z => Fin (h z)) z (seq 0 (snd x))).
        rewrite (nth_error_nth' _ 0) by (rewrite seq_length; exact Hz). now rewrite seq_nth. }
      rewrite !Hn2; [now rewrite HB|exact Hs|]. destruct Ht as [Ht _]. now apply Ht.
    - intros Hid. destruct (Cy i x Hi) as [s [-> Fs]]. destruct (Cy' i' (r x) Hi') as [s' [-> Fs']]. rewrite Hn in Fs'. f_equal.
      refine (first_best_unique bel bel' (snd x) s s' _ Fs Fs'). intros z Hz. rewrite <- (Hid z Hz) at 1. now apply HB.
  Qed.
End Runs.

(** ** Inputs far from a variable *)
Lemma embeds_id {A} (fs : list (sfactor A)) : embeds fs fs (fun f => f) (fun _ u => u) (fun x => x) (fun _ s => s).
Proof. split; [|intros x _; split; [reflexivity|apply perm_below_id]]. intros f Hf. split; [exact Hf|]. split; [reflexivity|]. split; [apply perm_below_id|auto]. Qed.
Lemma Forall2_same {X} (P : X -> X -> Prop) l : (forall x, In x l -> P x x) -> Forall2 P l l.
Proof. induction l as [|x l IH]; intros H; constructor; [apply H; now left|]. apply IH. intros y Hy. apply H. now right. Qed.
Section Far.
  Context (vgs : list vgroup) (g : fgraph R) (T : R) (c : bp_ctx R).
  Hypothesis Hok : groups_ok vgs.
  Hypothesis Hr : reachable vgs g.
  Hypothesis Hwf : wf_groups (gr_groups g).
  Hypothesis Hbp : bp_of g T c.
  Context (a a' : bp_arrays R).
  Hypothesis Ha : arrays_of c a.
  Hypothesis Ha' : arrays_of c a'.
  Let fs := graph_factors 0%R (gr_groups g).
  Let pots b := graph_pots (gr_groups g) (ba_log_potentials b).
  Let ne := length (enum_factors (gr_groups g)).
  Let lens := map snd (sf_edges fs).
  Let evs b := read_ev (gr_vars_to_starts g) (ba_evidence b).
  Let msgs b := read_msgs fs (ba_ftov_msgs b).
  Context (d B P B' P' : R) (D K D' K' : nat).
  Hypothesis HT : (0 <= T)%R.
  Hypothesis Hd : (0 <= d <= 1)%R.
  Hypothesis M : moderate fs (pots a) ne (evs a) B P D K.
  Hypothesis M' : moderate fs (pots a') ne (evs a') B' P' D' K'.
  Hypothesis Hsup : supported lens.
  Hypothesis Hfl : above_floor lens (ba_ftov_msgs a).
  Hypothesis Hfl' : above_floor lens (ba_ftov_msgs a').
  Hypothesis Hpos : forall gr n, In gr vgs -> In n (vg_num_states gr) -> 0 < n.
  Hypothesis Hone : forall gr, In gr vgs -> one_state gr = false.

  Lemma C54_far_lemma n : exists b q b' q', get_beliefs c (run_bp c a n d) = Ok b /\ decode_map_states b = Ok q /\
      get_beliefs c (run_bp c a' n d) = Ok b' /\ decode_map_states b' = Ok q' /\
    forall gr, In gr vgs -> exists e y e' y',
      dget vg_eqb gr b = Some e /\ dget vg_eqb gr q = Some y /\ dget vg_eqb gr b' = Some e' /\ dget vg_eqb gr q' = Some y' /\
    forall i x, nth_error (vg_variables gr) i = Some x ->
      (forall z s, within fs x n z -> s < snd z -> evs a' z s = evs a z s) ->
      (forall f u s, f < length fs -> u < arity fs f -> within fs x n (var_at fs f u) -> s < snd (var_at fs f u) -> msgs a' f u s = msgs a f u s) ->
      (forall k f z j, k < n -> f < length fs -> In z (sf_vars (factor_at fs f)) -> within fs x k z ->
         j < length (sf_configs (factor_at fs f)) -> pots a' f j = pots a f j) ->
      (forall s, s < snd x -> nth_error (row gr e' i) s = nth_error (row gr e i) s) /\ cell gr y' i = cell gr y i.
  Proof.
    destruct (C54_beliefs_lemma vgs vgs g g T c c Hok Hr Hwf Hbp Hok Hr Hwf Hbp a a' Ha Ha' d B P B' P' D K D' K' HT Hd M M' Hsup Hsup Hfl Hfl'
      (fun f => f) (fun _ u => u) (fun x => x) (fun _ s => s) (embeds_id fs) Hpos Hone Hpos Hone n) as [b [q [b' [q' [E1 [E2 [E3 [E4 H]]]]]]]].
    exists b, q, b', q'. do 4 (split; [assumption|]). intros gr Hg. destruct (H gr gr Hg Hg) as [e [y [e' [y' [F1 [F2 [F3 [F4 Q]]]]]]]].
    exists e, y, e', y'. do 4 (split; [assumption|]). intros i x Hi C1 C2 C3.
    assert (SV : forall z, within fs x n z -> same_var fs fs (fun f => f) (fun _ u => u) (fun x => x) (fun _ s => s) (evs a) (evs a') z).
    { intros z Hz. split; [|intros s Hs; now apply C1]. unfold place. erewrite map_ext; [rewrite map_id; apply Permutation_refl|]. now intros [f u]. }
    destruct (Q i x i Hi Hi eq_refl (perm_below_id _) (SV x (within_refl fs x n))) as [Q1 Q2].
    - apply (around_same fs fs); [exact SV| |].
      + intros f u Hf Hu Hw s Hs. now apply C2.
      + intros k f z Hk Hf Hz Hw. exists (table fs (pots a) f). split.
        * unfold table. erewrite map_ext_in; [apply Permutation_refl|]. intros j Hj. apply in_seq in Hj. cbv beta. f_equal. apply (C3 k f z j); auto; lia.
        * apply Forall2_same. intros row _. split; [reflexivity|]. reflexivity.
    - split; [exact Q1|]. now apply Q2.
  Qed.
End Far.

(** ** More factors *)
Section Added.
  Context {A : Type} (fs fs' extra : list (sfactor A)) (p : nat -> nat).
  Hypothesis Hlen : length fs' = length fs + length extra.
  Hypothesis Hlt : forall f, f < length fs' -> p f < length fs'.
  Hypothesis Hinj : forall f h, f < length fs' -> h < length fs' -> p f = p h -> f = h.
  Hypothesis Hp : forall f, f < length fs' -> factor_at (fs ++ extra) f = factor_at fs' (p f).
  Notation same_id := (fun _ u : nat => u).

  Lemma added_factor f : f < length fs -> factor_at fs' (p f) = factor_at fs f.
  Proof. intros Hf. rewrite <- Hp by lia. unfold factor_at. now rewrite app_nth1. Qed.
  Lemma added_embeds : embeds fs fs' p (fun _ u => u) (fun x => x) (fun _ s => s).
  Proof.
    split; [|intros x _; split; [reflexivity|apply perm_below_id]]. intros f Hf. unfold arity, var_at. rewrite (added_factor f Hf).
    split; [apply Hlt; lia|]. split; [reflexivity|]. split; [apply perm_below_id|auto].
  Qed.
  Lemma added_place_in x fu : In fu (slots_of fs x) -> In (place p (fun _ u => u) fu) (slots_of fs' x).
  Proof.
    destruct fu as [f u]. intros Hi. apply In_slots_of in Hi. destruct Hi as [H1 [H2 H3]]. unfold place. cbn [fst snd]. apply In_slots_of.
    unfold arity, var_at in *. rewrite (added_factor f H1). split; [apply Hlt; lia|]. now split.
  Qed.
  Lemma added_place_nodup x : NoDup (map (place p (fun _ u => u)) (slots_of fs x)).
  Proof.
    apply NoDup_map_on; [apply NoDup_filter, NoDup_slots|]. intros [f u] [h v] Hf Hh E. apply In_slots_of in Hf, Hh. unfold place in E. cbn [fst snd] in E.
    injection E as E ->. apply Hinj in E; [now subst|lia|lia].
  Qed.
  Lemma added_slots x : (forall F, In F extra -> ~ In x (sf_vars F)) -> Permutation (map (place p (fun _ u => u)) (slots_of fs x)) (slots_of fs' x).
  Proof.
    intros He. apply NoDup_Permutation; [apply added_place_nodup|apply NoDup_filter, NoDup_slots|]. intros [f' u]. rewrite in_map_iff. split.
    - intros [fu [<- Hi]]. now apply added_place_in.
    - intros Hi. apply In_slots_of in Hi. destruct Hi as [H1 [H2 H3]].
      assert (Hs : exists f, f < length fs' /\ p f = f') by (apply (bInjective_bSurjective (f := p) Hlt); [exact Hinj|exact H1]).
      destruct Hs as [f [Hf <-]]. destruct (Nat.lt_ge_cases f (length fs)) as [Hl|Hl].
      + exists (f, u). split; [reflexivity|]. apply In_slots_of. unfold arity, var_at in *. rewrite (added_factor f Hl) in *. auto.
      + exfalso. assert (E : factor_at fs' (p f) = nth (f - length fs) extra (SF [] [] [])) by (rewrite <- Hp by exact Hf; unfold factor_at; now apply app_nth2).
        apply (He (factor_at fs' (p f))).
        * rewrite E. apply nth_In. lia.
        * rewrite <- H3. now apply nth_In.
  Qed.
  Lemma added_edges x : In x (sf_edges fs) -> In x (sf_edges fs').
  Proof.
    unfold sf_edges. rewrite !in_concat. intros [l [Hl Hx]]. apply in_map_iff in Hl. destruct Hl as [F [<- HF]].
    destruct (In_nth fs F (SF [] [] []) HF) as [f [Hf E]]. exists (sf_vars F). split; [|exact Hx]. apply in_map.
    change (factor_at fs f = F) in E. rewrite <- E, <- (added_factor f Hf). apply nth_In. apply Hlt. lia.
  Qed.
  Lemma added_moderate pots pots' ne ne' ev B P D K :
    (forall f, f < ne -> f < length fs /\ p f < ne') ->
    (forall f k, f < ne -> k < length (sf_configs (factor_at fs f)) -> pots' (p f) k = pots f k) ->
    moderate fs' pots' ne' ev B P D K -> moderate fs pots ne ev B P D K.
  Proof.
    intros Hne Hpt [M1 [M2 [M3 [M4 [M5 M6]]]]]. split; [|split; [|split; [|split; [|split]]]].
    - intros x s Hx. apply M1. now apply added_edges.
    - intros f k Hf Hk. rewrite <- Hpt by assumption. destruct (Hne f Hf) as [H1 H2]. apply M2; [exact H2|]. now rewrite (added_factor f H1).
    - intros x. eapply Nat.le_trans; [|apply (M3 x)]. rewrite <- (map_length (place p (fun _ u => u))). apply NoDup_incl_length; [apply added_place_nodup|].
      intros fu Hi. apply in_map_iff in Hi. destruct Hi as [gj [<- Hi]]. now apply added_place_in.
    - intros f Hf. destruct (Hne f Hf) as [H1 H2]. specialize (M4 (p f) H2). unfold arity in *. now rewrite (added_factor f H1) in M4.
    - intros f u s Hf Hu Hs. destruct (Hne f Hf) as [H1 H2]. specialize (M5 (p f) u s H2). unfold choices, config_at_slot, arity, var_at in *. rewrite (added_factor f H1) in M5. now apply M5.
    - exact M6.
  Qed.
End Added.
Lemma supported_part (l l1 l2 : list nat) : Permutation l (l1 ++ l2) -> supported l -> supported l1.
Proof.
  intros Hp Hs. apply (supported_perm _ _ Hp) in Hs. destruct Hs as [H1 H2]. split; [|intros n Hn; apply H2; apply in_or_app; now left].
  assert (E : nat_max l1 <= nat_max (l1 ++ l2)) by (apply nat_max_le; intros n Hn; apply nat_max_ge; apply in_or_app; now left). rewrite list_sum_app in H1. lia.
Qed.
Lemma moderate_fewer {A} (fs : list (sfactor A)) pots ne ne' ev B P D K : ne' <= ne -> moderate fs pots ne ev B P D K -> moderate fs pots ne' ev B P D K.
Proof.
  intros H [M1 [M2 [M3 [M4 [M5 M6]]]]]. split; [exact M1|]. split; [intros; apply M2; auto; lia|]. split; [exact M3|].
  split; [intros; apply M4; lia|]. split; [intros; apply M5; auto; lia|exact M6].
Qed.
Lemma C54_added_lemma vgs (g g' : fgraph R) T c c' eu a a' extra :
  groups_ok vgs -> reachable vgs g -> reachable vgs g' -> wf_groups (gr_groups g) -> wf_groups (gr_groups g') ->
  let fs := graph_factors 0%R (gr_groups g) in
  let fs' := graph_factors 0%R (gr_groups g') in
  Permutation fs' (fs ++ extra) ->
  fresh_bp g T c -> fresh_bp g' T c' -> bp_init c None None eu = Ok a -> bp_init c' None None eu = Ok a' ->
  forall B P D K d n,
  moderate fs' (fun f k => nth k (sf_pots (factor_at fs' f)) 0%R) (length fs') (read_ev (gr_vars_to_starts g) (ba_evidence a)) B P D K ->
  (0 <= T)%R -> (0 <= d <= 1)%R -> supported (map snd (sf_edges fs')) ->
  (forall gr k, In gr vgs -> In k (vg_num_states gr) -> 0 < k) -> (forall gr, In gr vgs -> one_state gr = false) ->
  exists b q b' q', get_beliefs c (run_bp c a n d) = Ok b /\ decode_map_states b = Ok q /\
    get_beliefs c' (run_bp c' a' n d) = Ok b' /\ decode_map_states b' = Ok q' /\
  forall gr, In gr vgs -> exists e y e' y',
    dget vg_eqb gr b = Some e /\ dget vg_eqb gr q = Some y /\ dget vg_eqb gr b' = Some e' /\ dget vg_eqb gr q' = Some y' /\
  forall i x, nth_error (vg_variables gr) i = Some x ->
    (forall F z, In F extra -> In z (sf_vars F) -> ~ within fs x n z) ->
    (forall s, s < snd x -> nth_error (row gr e' i) s = nth_error (row gr e i) s) /\ cell gr y' i = cell gr y i.
Proof.
  intros Hok Hr Hr' Hwf Hwf' fs fs' Hp Hf Hf' Hi Hi' B P D K d n M HT Hd Hsup Hpos Hone.
  pose proof (fresh_fields g T c Hf) as [Hbp _]. pose proof (fresh_fields g' T c' Hf') as [Hbp' _].
  destruct (init_fields g T c eu a Hf Hi) as [Ha [El [Em Ev]]]. destruct (init_fields g' T c' eu a' Hf' Hi') as [Ha' [El' [Em' Ev']]].
  assert (Hst : gr_vars_to_starts g' = gr_vars_to_starts g) by (apply (two_starts vgs g g' Hok Hr Hr')).
  assert (Hev : ba_evidence a' = ba_evidence a).
  { pose proof (two_groups vgs g g' T c c' Hok Hr Hr' Hbp Hbp') as E1.
    assert (E2 : st_num_var_states (bs_fg_state (bc_state c')) = st_num_var_states (bs_fg_state (bc_state c)) /\ st_vars_to_starts (bs_fg_state (bc_state c')) = st_vars_to_starts (bs_fg_state (bc_state c))).
    { destruct (ctx_state g T c Hbp) as [junk Hc]. destruct (ctx_state g' T c' Hbp') as [junk' Hc'].
      destruct (compile_fg_state_layout _ _ _ _ Hok Hr Hc) as [_ [-> ->]]. destruct (compile_fg_state_layout _ _ _ _ Hok Hr' Hc') as [_ [-> ->]]. now split. }
    destruct E2 as [E2 E3]. destruct eu as [u|]; rewrite E2 in Ev'; [rewrite (update_evidence_same _ _ _ _ E1 E3) in Ev'|]; congruence. }
  apply (Permutation_nth _ _ (SF [] [] [])) in Hp as Hp2. destruct Hp2 as [Hl [p [H1 [H2 H3]]]]. rewrite app_length in Hl.
  assert (Hlen : length fs' = length fs + length extra) by lia.
  assert (Hpf : forall f, f < length fs -> factor_at fs' (p f) = factor_at fs f) by (apply (added_factor fs fs' extra p Hlen H3)).
  pose proof (added_embeds fs fs' extra p Hlen H1 H3) as Hemb.
  assert (Hpots : forall f k, f < length fs -> k < length (sf_configs (factor_at fs f)) ->
    graph_pots (gr_groups g') (ba_log_potentials a') (p f) k = graph_pots (gr_groups g) (ba_log_potentials a) f k).
  { intros f k Hfl Hk. rewrite El, El'. rewrite (own_pots (gr_groups g)), (own_pots (gr_groups g')); fold fs; fold fs'; auto; rewrite ?(Hpf f Hfl); auto. apply H1. lia. }
  assert (M0' : moderate fs' (graph_pots (gr_groups g') (ba_log_potentials a')) (length fs') (read_ev (gr_vars_to_starts g') (ba_evidence a')) B P D K).
  { rewrite Hst, Hev. destruct M as [M1 [M2 M3]]. split; [exact M1|]. split; [|exact M3]. intros f k Hfl Hk. rewrite El', own_pots by assumption. now apply M2. }
  assert (M0 : moderate fs (graph_pots (gr_groups g) (ba_log_potentials a)) (length fs) (read_ev (gr_vars_to_starts g) (ba_evidence a)) B P D K).
  { apply (added_moderate fs fs' extra p Hlen H1 H2 H3 _ (graph_pots (gr_groups g') (ba_log_potentials a')) _ (length fs')).
    - intros f Hfl. split; [exact Hfl|]. apply H1. lia.
    - exact Hpots.
    - now rewrite <- Hst, <- Hev. }
  assert (Hne : forall G : per_type (list (fgroup R)), length (enum_factors G) <= length (graph_factors 0%R G)) by (intros G; unfold graph_factors; rewrite app_length; lia).
  assert (Hsup0 : supported (map snd (sf_edges fs))).
  { apply (supported_part (map snd (sf_edges fs')) _ (map snd (sf_edges extra))); [|exact Hsup]. rewrite <- map_app. apply Permutation_map.
    unfold sf_edges. rewrite <- concat_app, <- map_app. rewrite <- !flat_map_concat_map. now apply Permutation_flat_map. }
  destruct (C54_beliefs_lemma vgs vgs g g' T c c' Hok Hr Hwf Hbp Hok Hr' Hwf' Hbp' a a' Ha Ha' d B P B P D K D K HT Hd
    (moderate_fewer _ _ _ _ _ _ _ _ _ (Hne (gr_groups g)) M0) (moderate_fewer _ _ _ _ _ _ _ _ _ (Hne (gr_groups g')) M0') Hsup0 Hsup
    ltac:(rewrite Em; apply zeros_above) ltac:(rewrite Em'; apply zeros_above) p (fun _ u => u) (fun x => x) (fun _ s => s) Hemb Hpos Hone Hpos Hone n)
    as [b [q [b' [q' [E1 [E2 [E3 [E4 H]]]]]]]].
  exists b, q, b', q'. do 4 (split; [assumption|]). intros gr Hg. destruct (H gr gr Hg Hg) as [e [y [e' [y' [F1 [F2 [F3 [F4 Q]]]]]]]].
  exists e, y, e', y'. do 4 (split; [assumption|]). intros i x Hx Hfar.
  assert (SV : forall z, within fs x n z -> same_var fs fs' p (fun _ u => u) (fun x => x) (fun _ s => s)
    (read_ev (gr_vars_to_starts g) (ba_evidence a)) (read_ev (gr_vars_to_starts g') (ba_evidence a')) z).
  { intros z Hz. split; [|intros s Hs; now rewrite Hst, Hev]. apply (added_slots fs fs' extra p Hlen H1 H2 H3). intros F HF Hin. now apply (Hfar F z). }
  destruct (Q i x i Hx Hx eq_refl (perm_below_id _) (SV x (within_refl fs x n))) as [Q1 Q2].
  - apply (around_same fs fs'); [exact SV| |].
    + intros f u Hff Hu Hw s Hs. rewrite Em, Em'. now rewrite !read_zeros.
    + intros k f z Hk Hff Hz Hw. exists (table fs (graph_pots (gr_groups g) (ba_log_potentials a)) f). split.
      * unfold table. rewrite (Hpf f Hff). erewrite map_ext_in; [apply Permutation_refl|]. intros j Hj. apply in_seq in Hj. cbv beta. f_equal. apply Hpots; [exact Hff|lia].
      * apply Forall2_same. intros rw _. split; reflexivity.
  - split; [exact Q1|]. now apply Q2.
Qed.
