(** * Proofs about factors that treat their variables separately (C59). *)
From Verif Require Import NumPy Lists VGroup FGraph BPState BP SpecVGroup SpecFGraph SpecFactor SpecAdd SpecWiring SpecState SpecBP SpecText SpecBeliefs SpecPerm SpecLocal SpecConv SpecSep.
From Verif Require Import LemFactor LemFGraph LemAdd LemWiring LemGraph LemState LemNum LemNorm LemVtoF LemLogBP LemText LemRun LemBeliefs LemShift LemPerm LemStable LemLocal LemConv LemSum LemBruteSoft.
From Coq Require Import Reals Lra Lia Permutation FinFun.
Local Open Scope nat_scope.

(** ** One factor *)
Lemma rmaxs_scale {X} (h : X -> R) k l : (0 <= k)%R -> rmaxs (map (fun x => k * h x)%R l) = (k * rmaxs (map h l))%R.
Proof.
  intros Hk. destruct l as [|x l]; [cbn; ring|]. apply rmaxs_eq.
  - assert (I : In (rmaxs (map h (x :: l))) (map h (x :: l))) by (apply rmaxs_In; discriminate). apply in_map_iff in I. destruct I as [y [<- Hy]].
    apply (in_map (fun x => k * h x)%R) in Hy. exact Hy.
  - intros z Hz. apply in_map_iff in Hz. destruct Hz as [y [<- Hy]]. apply Rmult_le_compat_l; [exact Hk|]. apply rmaxs_ub. now apply in_map.
Qed.
Lemma centred_le n h s : s < n -> (centred n h s <= 0)%R.
Proof. intros Hs. unfold centred. assert (h s <= rmaxs (map h (seq 0 n)))%R by (apply rmaxs_ub, in_map, in_seq; lia). lra. Qed.
(** Subtracting the maximum of a multiple of [h] plus a constant. *)
Lemma centred_affine n h g k e s : s < n -> (0 <= k)%R -> (forall i, i < n -> g i = (k * h i + e)%R) -> (g s - rmaxs (map g (seq 0 n)))%R = (k * centred n h s)%R.
Proof.
  intros Hs Hk Hg. erewrite (map_ext_in g (fun i => k * h i + e)%R) by (intros i Hi; apply in_seq in Hi; apply Hg; lia).
  rewrite (rmaxs_shift (fun i => k * h i)%R) by (destruct n; [lia|discriminate]). rewrite rmaxs_scale by exact Hk. rewrite Hg by exact Hs. unfold centred. ring.
Qed.
Lemma rsum_others (h : nat -> R) u n : u < n -> rsum (map h (seq 0 n)) = (h u + rsum (map h (filter (fun v => negb (v =? u)) (seq 0 n))))%R.
Proof.
  intros Hu. rewrite (rsum_filter_split (fun v => v =? u) h (seq 0 n)). f_equal.
  rewrite LemBruteSoft.rsum_filter_if. erewrite rsum_ext; [apply (LemSum.rsum_single_nat (seq 0 n) u (h u)); [apply seq_NoDup|apply in_seq; lia]|].
  intros x _. cbv beta. destruct (Nat.eqb_spec x u) as [->|]; reflexivity.
Qed.
Section Single.
  Context {A : Type} (fs : list (sfactor A)) (pots : nat -> nat -> R) (f : nat) (th : nat -> nat -> R).
  Hypothesis Hcfg : configs_ok fs.
  Hypothesis Hpos : forall h u, h < length fs -> u < arity fs h -> 0 < snd (var_at fs h u).
  Hypothesis Hf : f < length fs.
  Hypothesis Hsep : separable (factor_at fs f) (pots f) th.
  Let fs1 := [factor_at fs f].
  Lemma one_cfg : configs_ok fs1.
  Proof. intros h c u Hh Hc. assert (h = 0) by (cbn in Hh; lia). subst h. exact (Hcfg f c u Hf Hc). Qed.
  Lemma one_all : all_configs fs1.
  Proof. intros h Hh. assert (h = 0) by (cbn in Hh; lia). subst h. exact (proj1 Hsep). Qed.
  Lemma sep_move u s s' : u < arity fs f -> s < snd (var_at fs f u) -> s' < snd (var_at fs f u) ->
    exists mv, Permutation (map mv (choices fs f u s)) (choices fs f u s') /\
      forall c, In c (choices fs f u s) -> mv c < length (sf_configs (factor_at fs f)) /\ config_at_slot fs f (mv c) u = s' /\
        forall v, v < arity fs f -> v <> u -> config_at_slot fs f (mv c) v = config_at_slot fs f c v.
  Proof.
    intros Hu Hs Hs'. eexists. split; [exact (move_perm fs1 one_cfg one_all 0 u s s' (Nat.lt_0_succ 0) Hu Hs Hs')|].
    intros c Hc. apply choice_iff in Hc. destruct Hc as [Hc _]. destruct (move_ok fs1 one_cfg one_all 0 u s' c (Nat.lt_0_succ 0) Hc Hu Hs') as [M1 M2].
    apply same_iff in M2. split; [exact M1|]. exact M2.
  Qed.
  Lemma sep_some u s : u < arity fs f -> s < snd (var_at fs f u) -> choices fs f u s <> [].
  Proof.
    intros Hu Hs. apply (all_covered fs1 one_all) with (f := 0); [|exact (Nat.lt_0_succ 0)|exact Hu|exact Hs].
    intros h v Hh Hv. assert (h = 0) by (cbn in Hh; lia). subst h. exact (Hpos f v Hf Hv).
  Qed.
  Lemma sep_score v u s s' c c' : u < arity fs f -> c < length (sf_configs (factor_at fs f)) -> c' < length (sf_configs (factor_at fs f)) ->
    config_at_slot fs f c u = s -> config_at_slot fs f c' u = s' ->
    (forall w, w < arity fs f -> w <> u -> config_at_slot fs f c' w = config_at_slot fs f c w) ->
    score_but fs pots v f c' u = (score_but fs pots v f c u + (th u s' - th u s))%R.
  Proof.
    intros Hu Hc Hc' E E' Ho. destruct Hsep as [_ [k Hk]]. unfold score_but. rewrite (Hk c Hc), (Hk c' Hc').
    change (length (sf_vars (factor_at fs f))) with (arity fs f).
    rewrite !(rsum_others (fun w => th w _) u (arity fs f) Hu).
    change (Z.to_nat (nth u (nth c (sf_configs (factor_at fs f)) []) 0%Z)) with (config_at_slot fs f c u).
    change (Z.to_nat (nth u (nth c' (sf_configs (factor_at fs f)) []) 0%Z)) with (config_at_slot fs f c' u). rewrite E, E'.
    assert (L : forall w, In w (filter (fun w => negb (w =? u)) (seq 0 (arity fs f))) -> config_at_slot fs f c' w = config_at_slot fs f c w).
    { intros w Hw. apply filter_In in Hw. destruct Hw as [Hw Hne]. apply in_seq in Hw. apply negb_true_iff, Nat.eqb_neq in Hne. apply Ho; [lia|exact Hne]. }
    rewrite (rsum_ext (fun w => v f w (config_at_slot fs f c' w)) (fun w => v f w (config_at_slot fs f c w))) by (intros w Hw; now rewrite L).
    rewrite (rsum_ext (fun w => th w (Z.to_nat (nth w (nth c' (sf_configs (factor_at fs f)) []) 0%Z))) (fun w => th w (Z.to_nat (nth w (nth c (sf_configs (factor_at fs f)) []) 0%Z)))).
    - ring.
    - intros w Hw. f_equal. exact (L w Hw).
  Qed.
  Lemma sep_new T v u s s' : u < arity fs f -> s < snd (var_at fs f u) -> s' < snd (var_at fs f u) ->
    fac_to_var fs pots T v f u s' = (fac_to_var fs pots T v f u s + (th u s' - th u s))%R.
  Proof.
    intros Hu Hs Hs'. destruct (sep_move u s s' Hu Hs Hs') as [mv [HP Hmv]]. pose proof (sep_some u s Hu Hs) as Hne.
    assert (HS : forall c, In c (choices fs f u s) -> score_but fs pots v f (mv c) u = (score_but fs pots v f c u + (th u s' - th u s))%R).
    { intros c Hc. destruct (Hmv c Hc) as [M1 [M2 M3]]. apply choice_iff in Hc. destruct Hc as [Hc Ec]. now apply sep_score. }
    unfold fac_to_var. destruct (Req_EM_T T 0) as [HT|HT].
    - unfold fac_to_var_max. rewrite <- (rmaxs_perm _ _ (Permutation_map _ HP)), map_map.
      erewrite (map_ext_in _ (fun c => score_but fs pots v f c u + (th u s' - th u s))%R) by exact HS. now apply rmaxs_shift.
    - unfold fac_to_var_soft. rewrite <- (rsum_perm _ _ (Permutation_map _ HP)), map_map.
      rewrite (rsum_ext _ (fun c => exp ((th u s' - th u s) / T) * exp (score_but fs pots v f c u / T))%R).
      + rewrite LemNum.rsum_scal, ln_mult, ln_exp; [field; exact HT|apply exp_pos|].
        apply LemNum.rsum_pos; [destruct (choices fs f u s); [contradiction|discriminate]|]. intros x Hx. apply in_map_iff in Hx. destruct Hx as [c [<- _]]. apply exp_pos.
      + intros c Hc. rewrite (HS c Hc), <- exp_plus. f_equal. field. exact HT.
  Qed.
  Hypothesis Hnar : narrow (factor_at fs f) th.
  Notation cen u := (centred (snd (var_at fs f u)) (th u)).
  (** One update of a message that is a multiple of the term, and of any message without damping. *)
  Lemma sep_step T d ev m al u s : (0 <= d <= 1)%R -> (0 <= al <= 1)%R -> u < arity fs f -> s < snd (var_at fs f u) ->
    (d = 0%R \/ forall i, i < snd (var_at fs f u) -> m f u i = (al * cen u i)%R) ->
    text_step fs pots T d ev m f u s = ((1 - d * (1 - al)) * cen u s)%R.
  Proof.
    intros Hd Hal Hu Hs Hm. unfold text_step. set (v := var_to_fac fs ev m). unfold normal.
    assert (Hk : (0 <= 1 - d * (1 - al) <= 1)%R) by nra.
    assert (E : forall i, i < snd (var_at fs f u) -> damp d m (fac_to_var fs pots T v) f u i
      = ((1 - d * (1 - al)) * th u i + ((1 - d) * (fac_to_var fs pots T v f u s - th u s) - d * al * rmaxs (map (th u) (seq 0 (snd (var_at fs f u))))))%R).
    { intros i Hi. unfold damp. rewrite (sep_new T v u s i Hu Hs Hi). destruct Hm as [->|Hm]; [ring|]. rewrite (Hm i Hi). unfold centred. ring. }
    rewrite (centred_affine _ (th u) (damp d m (fac_to_var fs pots T v) f u) _ _ s Hs (proj1 Hk) E).
    pose proof (Hnar u s Hu Hs) as HN. pose proof (centred_le _ (th u) s Hs). change (snd (nth u _ _)) with (snd (var_at fs f u)) in HN.
    apply Rmax_right. nra.
  Qed.
  Lemma sep_normal m al u s : (0 <= al <= 1)%R -> u < arity fs f -> s < snd (var_at fs f u) ->
    (forall i, i < snd (var_at fs f u) -> m f u i = (al * cen u i)%R) -> normal fs m f u s = (al * cen u s)%R.
  Proof.
    intros Hal Hu Hs Hm. unfold normal.
    rewrite (centred_affine _ (th u) (m f u) al (- al * rmaxs (map (th u) (seq 0 (snd (var_at fs f u)))))%R s Hs (proj1 Hal)) by (intros i Hi; rewrite (Hm i Hi); unfold centred; ring).
    pose proof (Hnar u s Hu Hs) as HN. pose proof (centred_le _ (th u) s Hs). change (snd (nth u _ _)) with (snd (var_at fs f u)) in HN. apply Rmax_right. nra.
  Qed.
  Lemma sep_run T d ev m al n u s : (0 <= d <= 1)%R -> (0 <= al <= 1)%R -> u < arity fs f -> s < snd (var_at fs f u) ->
    (forall i, i < snd (var_at fs f u) -> m f u i = (al * cen u i)%R) ->
    text_bp fs pots T d ev m n f u s = ((1 - d ^ n * (1 - al)) * cen u s)%R.
  Proof.
    intros Hd Hal Hu Hs Hm. revert s Hs. induction n as [|n IH]; intros s Hs.
    - change (normal fs m f u s = ((1 - d ^ 0 * (1 - al)) * cen u s)%R). cbn [pow]. rewrite (sep_normal m al u s Hal Hu Hs Hm). ring.
    - change (text_step fs pots T d ev (text_bp fs pots T d ev m n) f u s = ((1 - d ^ S n * (1 - al)) * cen u s)%R).
      assert (Hp : (0 <= d ^ n <= 1)%R) by (split; [apply pow_le; lra|rewrite <- (pow1 n); apply pow_incr; lra]).
      rewrite (sep_step T d ev _ (1 - d ^ n * (1 - al))); [cbn [pow]; ring|exact Hd|nra|exact Hu|exact Hs|]. right. exact IH.
  Qed.
  Lemma sep_undamped T ev m n u s : u < arity fs f -> s < snd (var_at fs f u) -> text_bp fs pots T 0 ev m (S n) f u s = cen u s.
  Proof.
    intros Hu Hs. change (text_step fs pots T 0 ev (text_bp fs pots T 0 ev m n) f u s = cen u s).
    rewrite (sep_step T 0 ev _ 1) by (try lra; auto). ring.
  Qed.
End Single.

(** ** More factors *)
Section Folded.
  Context {A : Type} (fs fs' : list (sfactor A)) (p : nat -> nat) (pots pots' : nat -> nat -> R) (ev ev' : variable -> nat -> R).
  Context (th : nat -> nat -> nat -> R).
  Hypothesis Hcfg : configs_ok fs.
  Hypothesis Hcfg' : configs_ok fs'.
  Hypothesis Hpos' : forall h u, h < length fs' -> u < arity fs' h -> 0 < snd (var_at fs' h u).
  Hypothesis Hext : extends fs fs' p.
  Hypothesis Hpots : forall f k, f < length fs -> k < length (sf_configs (factor_at fs f)) -> pots' (p f) k = pots f k.
  Hypothesis Hsep : forall f, f < length fs' -> is_extra fs p f = true -> separable (factor_at fs' f) (pots' f) (th f) /\ narrow (factor_at fs' f) (th f).
  Context (V : variable -> Prop).
  Hypothesis HV : forall f u, f < length fs -> u < arity fs f -> V (var_at fs f u).
  Hypothesis Hev : forall x s, V x -> s < snd x -> ev x s = (ev' x s + extra_terms fs fs' p th x s)%R.
  Notation wid := (fun _ u : nat => u).
  Notation same := (same_msg fs p wid (fun _ s => s)).

  Lemma ext_factor f : f < length fs -> factor_at fs' (p f) = factor_at fs f.
  Proof. intros Hf. now apply (proj1 Hext). Qed.
  Lemma ext_embeds : embeds fs fs' p wid (fun x => x) (fun _ s => s).
  Proof.
    split; [|intros x _; split; [reflexivity|apply perm_below_id]]. intros f Hf. unfold arity, var_at. rewrite (ext_factor f Hf).
    split; [now apply (proj1 Hext)|]. split; [reflexivity|]. split; [apply perm_below_id|auto].
  Qed.
  Lemma is_extra_iff f' : is_extra fs p f' = true <-> forall f, f < length fs -> p f <> f'.
  Proof.
    unfold is_extra. rewrite negb_true_iff, <- not_true_iff_false, existsb_exists. split.
    - intros H f Hf E. apply H. exists f. split; [apply in_seq; lia|now apply Nat.eqb_eq].
    - intros H [f [Hf E]]. apply in_seq in Hf. apply Nat.eqb_eq in E. now apply (H f); [lia|].
  Qed.
  Lemma not_extra f : f < length fs -> is_extra fs p (p f) = false.
  Proof. intros Hf. apply not_true_iff_false. rewrite is_extra_iff. intros H. now apply (H f Hf). Qed.
  Lemma ext_slots x : Permutation (map (place p wid) (slots_of fs x)) (filter (fun fu => negb (is_extra fs p (fst fu))) (slots_of fs' x)).
  Proof.
    apply NoDup_Permutation.
    - apply NoDup_map_on; [apply NoDup_filter, NoDup_slots|]. intros [f u] [h v] Hf Hh E. apply In_slots_of in Hf, Hh. unfold place in E. cbn [fst snd] in E.
      injection E as E ->. apply (proj2 Hext) in E; [now subst|lia|lia].
    - apply NoDup_filter, NoDup_filter, NoDup_slots.
    - intros [f' u]. rewrite in_map_iff, filter_In. cbn [fst]. split.
      + intros [[f v] [E Hi]]. unfold place in E. cbn [fst snd] in E. injection E as <- ->. apply In_slots_of in Hi. destruct Hi as [H1 [H2 H3]]. rewrite (not_extra f H1).
        split; [|reflexivity]. apply In_slots_of. unfold arity, var_at in *. rewrite (ext_factor f H1). split; [now apply (proj1 Hext)|]. now split.
      + intros [Hi He]. apply negb_true_iff in He. unfold is_extra in He. apply negb_false_iff, existsb_exists in He. destruct He as [f [Hf E]]. apply in_seq in Hf. apply Nat.eqb_eq in E. subst f'.
        assert (Hl : f < length fs) by lia. exists (f, u). split; [reflexivity|]. apply In_slots_of in Hi. apply In_slots_of. unfold arity, var_at in *. rewrite (ext_factor f Hl) in *. intuition lia.
  Qed.
  Lemma ext_same_factor f : f < length fs -> same_factor fs fs' p wid (fun _ s => s) pots pots' f.
  Proof.
    intros Hf. exists (table fs pots f). split; [|apply Forall2_same; intros rw _; split; reflexivity]. unfold table. rewrite (ext_factor f Hf).
    erewrite map_ext_in; [apply Permutation_refl|]. intros j Hj. apply in_seq in Hj. cbv beta. f_equal. apply Hpots; [exact Hf|lia].
  Qed.
  Definition settled (m : msg) : Prop := forall f u s, f < length fs' -> is_extra fs p f = true -> u < arity fs' f -> s < snd (var_at fs' f u) ->
    m f u s = centred (snd (var_at fs' f u)) (th f u) s.
  Lemma ext_sum (m m' : msg) x s (q : nat * nat -> bool) : V x -> s < snd x -> (forall f u, In (f, u) (slots_of fs x) -> q (place p wid (f, u)) = true -> same m m' f u) -> settled m' ->
    (forall fu, is_extra fs p (fst fu) = true -> q fu = true) ->
    (ev' x s + rsum (map (fun fu => m' (fst fu) (snd fu) s) (filter q (slots_of fs' x))))%R
    = (ev x s + rsum (map (fun fu => m (fst fu) (snd fu) s) (filter (fun fu => q (place p wid fu)) (slots_of fs x))))%R.
  Proof.
    intros HVx Hs Hm Hset Hq. rewrite (Hev x s HVx Hs), Rplus_assoc. f_equal.
    rewrite (rsum_filter_split (fun fu => is_extra fs p (fst fu))). f_equal.
    - unfold extra_terms.
      assert (E : filter (fun fu => is_extra fs p (fst fu)) (filter q (slots_of fs' x)) = filter (fun fu => is_extra fs p (fst fu)) (slots_of fs' x)).
      { induction (slots_of fs' x) as [|fu l IH]; [reflexivity|]. cbn [filter]. destruct (q fu) eqn:Q; cbn [filter]; destruct (is_extra fs p (fst fu)) eqn:X; rewrite ?IH; try reflexivity.
        rewrite (Hq fu X) in Q. discriminate. }
      rewrite E. apply rsum_ext. intros [f u] Hi. apply filter_In in Hi. destruct Hi as [Hi Hx]. cbn [fst snd] in *. apply In_slots_of in Hi. destruct Hi as [H1 [H2 H3]].
      rewrite Hset; rewrite ?H3; auto.
    - assert (E : forall l, filter (fun fu => negb (is_extra fs p (fst fu))) (filter q l) = filter q (filter (fun fu => negb (is_extra fs p (fst fu))) l)).
      { induction l as [|fu l IH]; [reflexivity|]. cbn [filter]. destruct (q fu) eqn:Q; cbn [filter]; destruct (is_extra fs p (fst fu)) eqn:X; cbn [negb filter]; rewrite ?Q, ?IH; reflexivity. }
      rewrite E. rewrite <- (rsum_perm _ _ (Permutation_map _ (filter_perm q _ _ (ext_slots x)))). rewrite LemNum.filter_map, map_map. apply rsum_ext. intros [f u] Hi. apply filter_In in Hi. destruct Hi as [Hi Hqf].
      specialize (Hm f u Hi Hqf s). cbn [place fst snd]. apply In_slots_of in Hi. destruct Hi as [_ [_ E3]]. rewrite E3 in Hm. now apply Hm.
  Qed.
  Lemma ext_var_to_fac m m' : (forall f u, f < length fs -> u < arity fs f -> same m m' f u) -> settled m' ->
    forall f u, f < length fs -> u < arity fs f -> same (var_to_fac fs ev m) (var_to_fac fs' ev' m') f u.
  Proof.
    intros Hm Hset f u Hf Hu s Hs. unfold var_to_fac. destruct (proj1 ext_embeds f Hf) as [_ [_ [_ Hv]]]. rewrite (Hv u Hu).
    rewrite (ext_sum m m' (var_at fs f u) s (fun fu => negb (slot_eqb fu (p f, u))) (HV f u Hf Hu) Hs).
    - f_equal. f_equal. f_equal. apply filter_ext_in. intros [h v] Hi. apply In_slots_of in Hi. f_equal. unfold place. cbn [fst snd].
      destruct (slot_eqb (p h, v) (p f, u)) eqn:E1, (slot_eqb (h, v) (f, u)) eqn:E2; try reflexivity; exfalso.
      + apply slot_eqb_eq in E1. injection E1 as E1 ->. apply (proj2 Hext) in E1; [|lia|lia]. subst h. assert (X : slot_eqb (f, u) (f, u) = true) by now apply slot_eqb_eq. congruence.
      + apply slot_eqb_eq in E2. injection E2 as -> ->. assert (X : slot_eqb (p f, u) (p f, u) = true) by now apply slot_eqb_eq. congruence.
    - intros h v Hi _. apply In_slots_of in Hi. apply Hm; lia.
    - exact Hset.
    - intros [h v] Hx. cbn [fst] in Hx. apply negb_true_iff, not_true_iff_false. intros E. apply slot_eqb_eq in E. injection E as -> ->. now rewrite (not_extra f Hf) in Hx.
  Qed.
  Lemma ext_text T d m m' n : (0 <= d <= 1)%R -> (forall f u, f < length fs -> u < arity fs f -> same m m' f u) -> settled m' ->
    (forall f u, f < length fs -> u < arity fs f -> same (text_bp fs pots T d ev m n) (text_bp fs' pots' T d ev' m' n) f u) /\ settled (text_bp fs' pots' T d ev' m' n).
  Proof.
    intros Hd Hm Hset. assert (HS : forall n, settled (text_bp fs' pots' T d ev' m' n)).
    { intros k f u s Hf Hx Hu Hs. destruct (Hsep f Hf Hx) as [S1 S2]. rewrite (sep_run fs' pots' f (th f) Hcfg' Hpos' Hf S1 S2 T d ev' m' 1 k u s Hd ltac:(lra) Hu Hs).
      - ring.
      - intros i Hi. rewrite (Hset f u i Hf Hx Hu Hi). ring. }
    split; [|apply HS]. induction n as [|n IH].
    - intros f u Hf Hu. apply (same_normal fs fs' p _ (fun x => x) _ ext_embeds); auto.
    - intros f u Hf Hu. change (same (text_step fs pots T d ev (text_bp fs pots T d ev m n)) (text_step fs' pots' T d ev' (text_bp fs' pots' T d ev' m' n)) f u).
      unfold text_step. apply (same_normal fs fs' p _ (fun x => x) _ ext_embeds); auto. apply same_damp; [now apply IH|].
      apply (same_fac_to_var fs fs' p _ (fun x => x) _ ext_embeds pots pots' Hcfg); [exact Hf|exact Hu|now apply ext_same_factor|].
      intros k Hk _. apply ext_var_to_fac; auto.
  Qed.
  Lemma ext_belief m m' x s : (forall f u, f < length fs -> u < arity fs f -> same m m' f u) -> settled m' -> V x -> s < snd x ->
    text_belief fs' ev' m' x s = text_belief fs ev m x s.
  Proof.
    intros Hm Hset HVx Hs. unfold text_belief. pose proof (ext_sum m m' x s (fun _ => true) HVx Hs) as E.
    assert (F : forall X (l : list X), filter (fun _ => true) l = l) by (intros X l; induction l as [|y l IH]; cbn; congruence). rewrite !F in E.
    apply E; auto. intros f u Hi _. apply In_slots_of in Hi. apply Hm; lia.
  Qed.
End Folded.

(** ** Runs *)
Section Runs.
  Context (vgs : list vgroup) (g : fgraph R) (T : R) (c : bp_ctx R).
  Hypothesis Hok : groups_ok vgs.
  Hypothesis Hr : reachable vgs g.
  Hypothesis Hwf : wf_groups (gr_groups g).
  Hypothesis Hbp : bp_of g T c.
  Context (a : bp_arrays R).
  Hypothesis Ha : arrays_of c a.
  Let fs := graph_factors 0%R (gr_groups g).
  Let pots := graph_pots (gr_groups g) (ba_log_potentials a).
  Let ne := length (enum_factors (gr_groups g)).
  Let lens := map snd (sf_edges fs).
  Let ev := read_ev (gr_vars_to_starts g) (ba_evidence a).
  Let msgs b := read_msgs fs (ba_ftov_msgs b).
  Context (d B P : R) (D K : nat).
  Hypothesis HT : (0 <= T)%R.
  Hypothesis Hd : (0 <= d <= 1)%R.
  Hypothesis M : moderate fs pots ne ev B P D K.
  Hypothesis Hsup : supported lens.
  Hypothesis Hfl : above_floor lens (ba_ftov_msgs a).

  Lemma run_text n : msg_eq fs (msgs (run_bp c a n d)) (text_bp fs pots T d ev (msgs a) n).
  Proof. apply (runs_text vgs vgs g g T c c Hok Hr Hwf Hbp Hok Hr Hwf Hbp a a Ha Ha d B P B P D K D K HT Hd M M Hsup Hsup Hfl Hfl n). Qed.
  Lemma C59_message_lemma f th al : f < length fs -> separable (factor_at fs f) (pots f) th -> narrow (factor_at fs f) th -> (0 <= al <= 1)%R ->
    forall u, u < arity fs f -> (forall s, s < snd (var_at fs f u) -> msgs a f u s = (al * centred (snd (var_at fs f u)) (th u) s)%R) ->
    forall n s, s < snd (var_at fs f u) -> msgs (run_bp c a n d) f u s = ((1 - d ^ n * (1 - al)) * centred (snd (var_at fs f u)) (th u) s)%R.
  Proof.
    intros Hf S1 S2 Hal u Hu Hm n s Hs. rewrite run_text by assumption.
    apply (sep_run fs pots f th (graph_configs_ok _ Hwf) (positive_states fs Hsup) Hf S1 S2); assumption.
  Qed.
  Lemma C59_undamped_lemma f th : d = 0%R -> f < length fs -> separable (factor_at fs f) (pots f) th -> narrow (factor_at fs f) th ->
    forall n u s, u < arity fs f -> s < snd (var_at fs f u) -> msgs (run_bp c a (S n) d) f u s = centred (snd (var_at fs f u)) (th u) s.
  Proof.
    intros E Hf S1 S2 n u s Hu Hs. rewrite run_text by assumption. rewrite E.
    apply (sep_undamped fs pots f th (graph_configs_ok _ Hwf) (positive_states fs Hsup) Hf S1 S2); assumption.
  Qed.
End Runs.
Section Two.
  Context (vgs : list vgroup) (g g' : fgraph R) (T : R) (c c' : bp_ctx R).
  Hypothesis Hok : groups_ok vgs.
  Hypothesis Hr : reachable vgs g.
  Hypothesis Hwf : wf_groups (gr_groups g).
  Hypothesis Hbp : bp_of g T c.
  Hypothesis Hr' : reachable vgs g'.
  Hypothesis Hwf' : wf_groups (gr_groups g').
  Hypothesis Hbp' : bp_of g' T c'.
  Context (a a' : bp_arrays R).
  Hypothesis Ha : arrays_of c a.
  Hypothesis Ha' : arrays_of c' a'.
  Let fs := graph_factors 0%R (gr_groups g).
  Let fs' := graph_factors 0%R (gr_groups g').
  Let pots := graph_pots (gr_groups g) (ba_log_potentials a).
  Let pots' := graph_pots (gr_groups g') (ba_log_potentials a').
  Let ne := length (enum_factors (gr_groups g)).
  Let ne' := length (enum_factors (gr_groups g')).
  Let lens := map snd (sf_edges fs).
  Let lens' := map snd (sf_edges fs').
  Let ev := read_ev (gr_vars_to_starts g) (ba_evidence a).
  Let ev' := read_ev (gr_vars_to_starts g') (ba_evidence a').
  Let msgs b := read_msgs fs (ba_ftov_msgs b).
  Let msgs' b := read_msgs fs' (ba_ftov_msgs b).
  Context (d B P B' P' : R) (D K D' K' : nat).
  Hypothesis HT : (0 <= T)%R.
  Hypothesis Hd : (0 <= d <= 1)%R.
  Hypothesis M : moderate fs pots ne ev B P D K.
  Hypothesis M' : moderate fs' pots' ne' ev' B' P' D' K'.
  Hypothesis Hsup : supported lens.
  Hypothesis Hsup' : supported lens'.
  Hypothesis Hfl : above_floor lens (ba_ftov_msgs a).
  Hypothesis Hfl' : above_floor lens' (ba_ftov_msgs a').
  Context (p : nat -> nat) (th : nat -> nat -> nat -> R).
  Hypothesis Hext : extends fs fs' p.
  Hypothesis Hpots : forall f k, f < length fs -> k < length (sf_configs (factor_at fs f)) -> pots' (p f) k = pots f k.
  Hypothesis Hsep : forall f, f < length fs' -> is_extra fs p f = true -> separable (factor_at fs' f) (pots' f) (th f) /\ narrow (factor_at fs' f) (th f).
  Hypothesis Hev : forall x s, In x (all_vars vgs) -> s < snd x -> ev x s = (ev' x s + extra_terms fs fs' p th x s)%R.
  Hypothesis Hmsg : forall f u s, f < length fs -> u < arity fs f -> s < snd (var_at fs f u) -> msgs' a' (p f) u s = msgs a f u s.
  Hypothesis Hset : forall f u s, f < length fs' -> is_extra fs p f = true -> u < arity fs' f -> s < snd (var_at fs' f u) ->
    msgs' a' f u s = centred (snd (var_at fs' f u)) (th f u) s.

  Lemma two_vars f u : f < length fs -> u < arity fs f -> In (var_at fs f u) (all_vars vgs).
  Proof. intros Hf Hu. apply (edges_vars vgs g T c Hok Hr Hwf Hbp). now apply var_in_edges. Qed.
  Lemma C59_same_lemma n f u s : f < length fs -> u < arity fs f -> s < snd (var_at fs f u) -> msgs' (run_bp c' a' n d) (p f) u s = msgs (run_bp c a n d) f u s.
  Proof.
    intros Hf Hu Hs. destruct (runs_text vgs vgs g g' T c c' Hok Hr Hwf Hbp Hok Hr' Hwf' Hbp' a a' Ha Ha' d B P B' P' D K D' K' HT Hd M M' Hsup Hsup' Hfl Hfl' n) as [E E'].
    refine (eq_trans (E' (p f) u s _ _ _) (eq_trans _ (eq_sym (E f u s Hf Hu Hs)))).
    1: now apply (proj1 Hext). 1: change (u < length (sf_vars (factor_at fs' (p f)))); rewrite (proj2 (proj1 Hext f Hf)); exact Hu.
    1: change (s < snd (nth u (sf_vars (factor_at fs' (p f))) (0%Z, 0))); rewrite (proj2 (proj1 Hext f Hf)); exact Hs.
    refine (proj1 (ext_text fs fs' p pots pots' ev ev' th (graph_configs_ok _ Hwf) (graph_configs_ok _ Hwf') (positive_states fs' Hsup') Hext Hpots Hsep (fun x => In x (all_vars vgs)) two_vars Hev T d (msgs a) (msgs' a') n Hd _ Hset) f u Hf Hu s Hs).
    intros h v Hh Hv i Hi. now apply Hmsg.
  Qed.
  Lemma C59_evidence_lemma :
    (forall gr k, In gr vgs -> In k (vg_num_states gr) -> 0 < k) -> (forall gr, In gr vgs -> one_state gr = false) ->
    forall n, exists b q b' q', get_beliefs c (run_bp c a n d) = Ok b /\ decode_map_states b = Ok q /\
      get_beliefs c' (run_bp c' a' n d) = Ok b' /\ decode_map_states b' = Ok q' /\
    forall gr, In gr vgs -> exists e y e' y',
      dget vg_eqb gr b = Some e /\ dget vg_eqb gr q = Some y /\ dget vg_eqb gr b' = Some e' /\ dget vg_eqb gr q' = Some y' /\
    forall i x, nth_error (vg_variables gr) i = Some x -> row gr e' i = row gr e i /\ cell gr y' i = cell gr y i.
  Proof.
    intros Hpos Hone n.
    pose proof (LemStable.run_arrays vgs g T c Hok Hr Hwf Hbp d a n Ha) as Hra. pose proof (LemStable.run_arrays vgs g' T c' Hok Hr' Hwf' Hbp' d a' n Ha') as Hra'.
    destruct (C34_lemma vgs g T c Hok Hr Hwf Hbp _ Hra Hpos Hone) as [b [q [Eb [Eq [_ Dq]]]]].
    destruct (C34_lemma vgs g' T c' Hok Hr' Hwf' Hbp' _ Hra' Hpos Hone) as [b' [q' [Eb' [Eq' [_ Dq']]]]].
    destruct (C33_lemma vgs g T c Hok Hr Hwf Hbp _ Hra Hpos) as [b2 [Eb2 [_ Db]]]. rewrite Eb in Eb2. injection Eb2 as <-.
    destruct (C33_lemma vgs g' T c' Hok Hr' Hwf' Hbp' _ Hra' Hpos) as [b2 [Eb2 [_ Db']]]. rewrite Eb' in Eb2. injection Eb2 as <-.
    exists b, q, b', q'. do 4 (split; [assumption|]). intros gr Hg.
    destruct (Dq gr Hg) as [y [Ey [_ Cy]]]. destruct (Dq' gr Hg) as [y' [Ey' [_ Cy']]]. destruct (Db gr Hg) as [e [Ee [_ Re]]]. destruct (Db' gr Hg) as [e' [Ee' [_ Re']]].
    exists e, y, e', y'. do 4 (split; [assumption|]). intros i x Hi.
    set (bel := text_belief fs ev (msgs (run_bp c a n d)) x). set (bel' := text_belief fs' ev' (msgs' (run_bp c' a' n d)) x).
    assert (HB : forall s, s < snd x -> bel' s = bel s).
    { intros s Hs. refine (ext_belief fs fs' p ev ev' th Hext (fun x => In x (all_vars vgs)) Hev _ _ x s _ _ _ Hs).
      - intros f u Hf Hu j Hj. now apply C59_same_lemma.
      - intros f u j Hf Hx Hu Hj. destruct (runs_text vgs vgs g g' T c c' Hok Hr Hwf Hbp Hok Hr' Hwf' Hbp' a a' Ha Ha' d B P B' P' D K D' K' HT Hd M M' Hsup Hsup' Hfl Hfl' n) as [_ E'].
        refine (eq_trans (E' f u j Hf Hu Hj) _). destruct (Hsep f Hf Hx) as [S1 S2].
        refine (eq_trans (sep_run fs' pots' f (th f) (graph_configs_ok _ Hwf') (positive_states fs' Hsup') Hf S1 S2 T d ev' _ 1 n u j Hd ltac:(lra) Hu Hj _) _); [|ring].
        intros k Hk. change (msgs' a' f u k = (1 * centred (snd (var_at fs' f u)) (th f u) k)%R). rewrite (Hset f u k Hf Hx Hu Hk). ring.
      - unfold all_vars. apply in_concat. exists (vg_variables gr). split; [now apply in_map|]. now apply nth_error_In in Hi. }
    split.
    - rewrite (Re i x Hi), (Re' i x Hi). f_equal. apply map_ext_in. intros s Hs. apply in_seq in Hs. f_equal. apply HB. lia.
    - destruct (Cy i x Hi) as [s [-> Fs]]. destruct (Cy' i x Hi) as [s' [-> Fs']]. f_equal. exact (first_best_unique bel bel' (snd x) s s' HB Fs Fs').
  Qed.
End Two.

(** ** Uninformative factors *)
Lemma rmaxs_zero n : rmaxs (map (fun _ : nat => 0%R) (seq 0 n)) = 0%R.
Proof. destruct n as [|n]; [reflexivity|]. apply rmaxs_eq; [now left|]. intros x Hx. apply in_map_iff in Hx. destruct Hx as [? [<- _]]. lra. Qed.
Lemma centred_zero n s : centred n (fun _ => 0%R) s = 0%R.
Proof. unfold centred. rewrite rmaxs_zero. ring. Qed.
Lemma uninformative_separable (F : sfactor R) pot : uninformative F -> (forall k, k < length (sf_configs F) -> pot k = nth k (sf_pots F) 0%R) -> separable F pot (fun _ _ => 0%R).
Proof.
  intros [H1 [k Hk]] Hp. split; [exact H1|]. exists k. intros j Hj. rewrite (Hp j Hj), (Hk j Hj).
  assert (E : forall l : list nat, rsum (map (fun _ => 0%R) l) = 0%R) by (induction l as [|x l IH]; cbn [map]; rewrite ?LemNum.rsum_cons, ?IH; [reflexivity|ring]). rewrite E. ring.
Qed.
Lemma C59_uninformative_lemma vgs (g g' : fgraph R) T c c' eu a a' extra :
  groups_ok vgs -> reachable vgs g -> reachable vgs g' -> wf_groups (gr_groups g) -> wf_groups (gr_groups g') ->
  let fs := graph_factors 0%R (gr_groups g) in
  let fs' := graph_factors 0%R (gr_groups g') in
  Permutation fs' (fs ++ extra) -> Forall uninformative extra ->
  fresh_bp g T c -> fresh_bp g' T c' -> bp_init c None None eu = Ok a -> bp_init c' None None eu = Ok a' ->
  forall B P D K d n,
  moderate fs' (fun f k => nth k (sf_pots (factor_at fs' f)) 0%R) (length fs') (read_ev (gr_vars_to_starts g) (ba_evidence a)) B P D K ->
  (0 <= T)%R -> (0 <= d <= 1)%R -> supported (map snd (sf_edges fs')) ->
  (forall gr k, In gr vgs -> In k (vg_num_states gr) -> 0 < k) -> (forall gr, In gr vgs -> one_state gr = false) ->
  exists b q b' q', get_beliefs c (run_bp c a n d) = Ok b /\ decode_map_states b = Ok q /\
    get_beliefs c' (run_bp c' a' n d) = Ok b' /\ decode_map_states b' = Ok q' /\
  forall gr, In gr vgs -> exists e y e' y',
    dget vg_eqb gr b = Some e /\ dget vg_eqb gr q = Some y /\ dget vg_eqb gr b' = Some e' /\ dget vg_eqb gr q' = Some y' /\
  forall i x, nth_error (vg_variables gr) i = Some x -> row gr e' i = row gr e i /\ cell gr y' i = cell gr y i.
Proof.
  intros Hok Hr Hr' Hwf Hwf' fs fs' Hp Hun Hf Hf' Hi Hi' B P D K d n M HT Hd Hsup Hpos Hone.
  pose proof (fresh_fields g T c Hf) as [Hbp _]. pose proof (fresh_fields g' T c' Hf') as [Hbp' _].
  destruct (init_fields g T c eu a Hf Hi) as [Ha [El [Em Ev]]]. destruct (init_fields g' T c' eu a' Hf' Hi') as [Ha' [El' [Em' Ev']]].
  assert (Hst : gr_vars_to_starts g' = gr_vars_to_starts g) by (apply (two_starts vgs g g' Hok Hr Hr')).
  assert (Hev : ba_evidence a' = ba_evidence a).
  { pose proof (two_groups vgs g g' T c c' Hok Hr Hr' Hbp Hbp') as E1.
    assert (E2 : st_num_var_states (bs_fg_state (bc_state c')) = st_num_var_states (bs_fg_state (bc_state c)) /\ st_vars_to_starts (bs_fg_state (bc_state c')) = st_vars_to_starts (bs_fg_state (bc_state c))).
    { destruct (ctx_state g T c Hbp) as [junk Hc]. destruct (ctx_state g' T c' Hbp') as [junk' Hc'].
      destruct (compile_fg_state_layout _ _ _ _ Hok Hr Hc) as [_ [-> ->]]. destruct (compile_fg_state_layout _ _ _ _ Hok Hr' Hc') as [_ [-> ->]]. now split. }
    destruct E2 as [E2 E3]. destruct eu as [u|]; rewrite E2 in Ev'; [rewrite (update_evidence_same _ _ _ _ E1 E3) in Ev'|]; congruence. }
  apply (Permutation_nth _ _ (SF [] [] [])) in Hp as Hp2. destruct Hp2 as [Hl [p [H1 [H2 H3]]]]. rewrite app_length in Hl.
  assert (Hlen : length fs' = length fs + length extra) by lia.
  assert (Hpf : forall f, f < length fs -> factor_at fs' (p f) = factor_at fs f) by (apply (added_factor fs fs' extra p Hlen H3)).
  assert (Hpots : forall f k, f < length fs -> k < length (sf_configs (factor_at fs f)) ->
    graph_pots (gr_groups g') (ba_log_potentials a') (p f) k = graph_pots (gr_groups g) (ba_log_potentials a) f k).
  { intros f k Hfl Hk. rewrite El, El'. rewrite (own_pots (gr_groups g)), (own_pots (gr_groups g')); fold fs; fold fs'; auto; rewrite ?(Hpf f Hfl); auto. apply H1. lia. }
  assert (M0' : moderate fs' (graph_pots (gr_groups g') (ba_log_potentials a')) (length fs') (read_ev (gr_vars_to_starts g') (ba_evidence a')) B P D K).
  { rewrite Hst, Hev. destruct M as [M1 [M2 M3]]. split; [exact M1|]. split; [|exact M3]. intros f k Hfl Hk. rewrite El', own_pots by assumption. now apply M2. }
  assert (M0 : moderate fs (graph_pots (gr_groups g) (ba_log_potentials a)) (length fs) (read_ev (gr_vars_to_starts g) (ba_evidence a)) B P D K).
  { apply (added_moderate fs fs' extra p Hlen H1 H2 H3 _ (graph_pots (gr_groups g') (ba_log_potentials a')) _ (length fs')).
    - intros f Hfl. split; [exact Hfl|]. apply H1. lia.
    - exact Hpots.
    - now rewrite <- Hst, <- Hev. }
  assert (Hne : forall G : per_type (list (fgroup R)), length (enum_factors G) <= length (graph_factors 0%R G)) by (intros G; unfold graph_factors; rewrite app_length; lia).
  assert (Hsup0 : supported (map snd (sf_edges fs))).
  { apply (supported_part (map snd (sf_edges fs')) _ (map snd (sf_edges extra))); [|exact Hsup]. rewrite <- map_app. apply Permutation_map.
    unfold sf_edges. rewrite <- concat_app, <- map_app. rewrite <- !flat_map_concat_map. now apply Permutation_flat_map. }
  assert (Hex : forall f', f' < length fs' -> is_extra fs p f' = true -> uninformative (factor_at fs' f')).
  { intros f' Hlt Hx. assert (Hs : exists f, f < length fs' /\ p f = f') by (apply (bInjective_bSurjective (f := p) H1); [exact H2|exact Hlt]). destruct Hs as [f [Hff <-]].
    rewrite is_extra_iff in Hx. destruct (Nat.lt_ge_cases f (length fs)) as [Hlt2|Hge]; [now contradiction (Hx f Hlt2)|].
    unfold factor_at. rewrite <- H3 by exact Hff. rewrite app_nth2 by exact Hge. rewrite Forall_forall in Hun. apply Hun, nth_In. lia. }
  apply (C59_evidence_lemma vgs g g' T c c' Hok Hr Hwf Hbp Hr' Hwf' Hbp' a a' Ha Ha' d B P B P D K D K HT Hd
    (moderate_fewer _ _ _ _ _ _ _ _ _ (Hne (gr_groups g)) M0) (moderate_fewer _ _ _ _ _ _ _ _ _ (Hne (gr_groups g')) M0') Hsup0 Hsup
    ltac:(rewrite Em; apply zeros_above) ltac:(rewrite Em'; apply zeros_above) p (fun _ _ _ => 0%R)).
  - fold fs. fold fs'. split; [|intros f h Hff Hh; change (f < length fs) in Hff; change (h < length fs) in Hh; apply H2; lia]. intros f Hff. split; [apply H1; change (f < length fs) in Hff; lia|now apply Hpf].
  - exact Hpots.
  - intros f Hff Hx. split.
    + apply uninformative_separable; [now apply Hex|]. intros k Hk. rewrite El'. now apply own_pots.
    + intros u s _ _. rewrite centred_zero. lra.
  - intros x s _ _. unfold extra_terms. rewrite Hst, Hev.
    assert (E : forall l : list (nat * nat), rsum (map (fun _ => centred (snd x) (fun _ => 0%R) s) l) = 0%R) by (induction l as [|z l IH]; cbn [map]; rewrite ?LemNum.rsum_cons, ?IH, ?centred_zero; [reflexivity|ring]). rewrite E. ring.
  - intros f u s _ _ _. rewrite Em, Em'. now rewrite !read_zeros.
  - intros f u s _ _ _ _. rewrite Em', read_zeros. symmetry. apply centred_zero.
  - exact Hpos.
  - exact Hone.
Qed.
