(** * The partition function from beliefs and messages (towards C72). *)
From Verif Require Import NumPy Lists VGroup FGraph BPState BP SpecVGroup SpecFGraph SpecFactor SpecWiring SpecState SpecBP SpecText SpecBeliefs SpecTree SpecSum SpecFix SpecBound.
From Verif Require Import LemVGroup LemFGraph LemState LemNum LemNorm LemVtoF LemText LemRun LemBeliefs LemBruteSoft LemShift LemPerm LemTree LemExact LemSpread LemSum LemFix LemBound.
From Coq Require Import Reals Lra Lia Permutation FunctionalExtensionality.
Local Open Scope nat_scope.

(** A sum over all states of a product over the variables is a product of sums. *)
Lemma sum_product (b : variable -> nat -> R) T ys : NoDup ys -> forall st,
  sum_states ys st (fun t => exp (rsum (map (fun x => b x (t x)) ys) / T)) = rprod (map (state_sum T b) ys).
Proof.
  induction ys as [|y ys IH]; intros Hn st.
  - cbn [sum_states map]. rewrite rsum_nil. unfold Rdiv. rewrite Rmult_0_l. apply exp_0.
  - apply NoDup_cons_iff in Hn. destruct Hn as [Hy Hn]. cbn [sum_states map]. rewrite rprod_cons. unfold state_sum at 1.
    rewrite Rmult_comm, <- rsum_scal. apply rsum_ext. intros s Hs. rewrite Rmult_comm, <- (IH Hn (assign st y s)), <- sum_scal.
    apply sum_ext. intros t t' H1 H2.
    assert (Et : forall x, t x = t' x). { intros x. destruct (in_dec var_dec x ys) as [Hi|Hi]; [now apply H1|]. destruct (H2 x Hi). congruence. }
    apply functional_extensionality in Et. subst t'. destruct (H2 y Hy) as [E _]. rewrite assign_same in E.
    rewrite rsum_cons, E, <- exp_plus. f_equal. unfold Rdiv. ring.
Qed.

Section Exact.
  Context {A : Type} (fs : list (sfactor A)) (pots : nat -> nat -> R) (T : R).
  Context (ev : variable -> nat -> R) (m : msg) (xs : list variable).
  Hypothesis HT : T <> 0%R.
  Hypothesis Hnd : NoDup xs.
  Hypothesis Hxs : incl (sf_edges fs) xs.
  Hypothesis Hpos : forall x, In x xs -> 0 < snd x.
  Hypothesis Hcfg : configs_ok fs.
  Hypothesis Hcov : covered fs.
  Let v := var_to_fac fs ev m.
  Let b := text_belief fs ev m.
  Hypothesis Hfix : forall f u, f < length fs -> u < arity fs f -> upto_at fs (fac_to_var_soft fs pots T v) m f u.
  Let ex := excess fs pots ev m.

  (** The total weight, with the constants along an elimination order. *)
  Lemma sum_exact_order r : acyclic fs -> (forall f, f < length fs -> 0 < arity fs f) -> In r xs ->
    exists (ord : list (nat * nat)) others (K : nat * nat -> R),
      Permutation (map fst ord) (seq 0 (length fs)) /\ Permutation xs (r :: flat_map (kids fs) ord ++ others) /\
      (forall q, In q ord -> fst q < length fs /\ snd q < arity fs (fst q) /\ (0 < K q)%R /\
        forall s, s < snd (svar fs q) -> rsum (map (fun c => exp (ex q c / T)) (choices fs (fst q) (snd q) s)) = K q) /\
      partition_sum fs pots T ev xs = (rprod (map K ord) * rprod (map (state_sum T b) others) * state_sum T b r)%R.
  Proof.
    intros Hac Har Hr. destruct (order_exists fs r Hac Har (length fs) (seq 0 (length fs))) as [ord [Hg Hp]];
      [apply seq_length|apply seq_NoDup|intros f Hf; apply in_seq in Hf; lia|].
    assert (Hlt : forall q, In q ord -> fst q < length fs).
    { intros q Hq. assert (H : In (fst q) (seq 0 (length fs))) by (apply (Permutation_in _ Hp), in_map, Hq). apply in_seq in H. lia. }
    assert (Hua : forall q, In q ord -> snd q < arity fs (fst q)).
    { clear - Hg. induction ord as [|p ord IH]; intros q Hq; [destruct Hq|]. cbn [good] in Hg. destruct Hg as [H1 [_ [[_ H2] _]]].
      destruct Hq as [<-|Hq]; [exact H2|now apply IH]. }
    destruct (excess_sums fs pots T ev m HT Hcov Hfix ord) as [K HK]; [intros q Hq; split; [now apply Hlt|now apply Hua]|].
    destruct (good_kids fs r ord Hg) as [N1 N2].
    destruct (NoDup_incl_perm (r :: flat_map (kids fs) ord) xs) as [others Ho].
    { now constructor. }
    { intros x [<-|Hx]; [exact Hr|]. apply in_flat_map in Hx. destruct Hx as [q [Hq Hx]]. apply (kids_vars fs xs Hxs q); [now apply Hlt|exact Hx]. }
    cbn [app] in Ho.
    assert (Ho' : Permutation xs (r :: others ++ flat_map (kids fs) (rev ord))).
    { rewrite Ho. apply perm_skip. rewrite Permutation_app_comm. apply Permutation_app_head. apply Permutation_flat_map, Permutation_rev. }
    assert (Hoth : forall x, In x others -> In x xs) by (intros x Hx; apply (Permutation_in _ (Permutation_sym Ho)); right; apply in_or_app; now right).
    assert (Hnr : ~ In r others). { apply (Permutation_NoDup Ho') in Hnd. apply NoDup_cons_iff in Hnd. intros F. apply (proj1 Hnd), in_or_app. now left. }
    assert (Hno : forall x, In x others -> ~ In x (flat_map (kids fs) (rev ord))).
    { pose proof (Permutation_NoDup Ho' Hnd) as Hd. apply NoDup_cons_iff in Hd. destruct Hd as [_ Hd]. clear - Hd. intros x Hx F.
      induction others as [|y l IH]; [destruct Hx|]. cbn [app] in Hd. apply NoDup_cons_iff in Hd. destruct Hx as [->|Hx]; [apply (proj1 Hd), in_or_app; now right|now apply IH]. }
    set (C := sum_states others (fun _ => 0) (fun t => exp (rsum (map (fun x => b x (t x)) others) / T))).
    assert (HC : (0 < C)%R) by (apply sum_pos; [intros y Hy; apply Hpos; now apply Hoth|intros t; apply exp_pos]).
    assert (HKp : (0 < rprod (map K ord))%R). { apply rprod_pos. intros x Hx. apply in_map_iff in Hx. destruct Hx as [q [<- Hq]]. apply (HK q Hq). }
    assert (Hm : forall s, s < snd r -> mass fs pots T ev xs r s = ((rprod (map K ord) * C) * exp (b r s / T))%R).
    { intros s Hs. rewrite (mass_split fs pots T ev xs Hnd r _ s Hnd Ho' Hs), sum_app. unfold C. rewrite (Rmult_comm (rprod _ * _)), <- Rmult_assoc, <- sum_scal.
      apply sum_ext. intros t t' H1 H2.
      assert (Etr : t r = s) by (destruct (H2 r Hnr) as [-> _]; apply assign_same).
      assert (Ht : forall x, In x xs -> t x < snd x).
      { intros x Hx. destruct (in_dec var_dec x others) as [Hi|Hi]; [now apply H1|]. destruct (var_dec x r) as [->|Hne]; [now rewrite Etr|].
        destruct (H2 x Hi) as [-> _]. rewrite assign_other by exact Hne. now apply Hpos. }
      rewrite <- (sum_order fs pots T ev m xs Hxs Hcfg r K ord Hg Hlt (fun q Hq => proj2 (HK q Hq)) t Ht).
      rewrite (Rmult_comm (exp (b r s / T))), Rmult_assoc, <- exp_plus, Rmult_comm, <- sum_scal.
      apply sum_ext. intros w w' J1 J2.
      assert (Ew : forall x, w x = w' x). { intros x. destruct (in_dec var_dec x (flat_map (kids fs) (rev ord))) as [Hi|Hi]; [now apply J1|]. destruct (J2 x Hi). congruence. }
      apply functional_extensionality in Ew. subst w'.
      rewrite (weight_order fs pots T ev m xs HT Hnd Hxs w r ord others (fun q Hq => conj (Hlt q Hq) (Hua q Hq)) Hp Ho). fold b. f_equal. f_equal.
      assert (Er : w r = s). { rewrite <- Etr. apply (J2 r). intros F. apply N2. apply in_flat_map in F. destruct F as [q [Hq Hk]]. apply in_flat_map. exists q. split; [now apply in_rev|exact Hk]. }
      rewrite Er. rewrite (rsum_ext (fun x => b x (w x)) (fun x => b x (t' x)) others); [field; exact HT|].
      intros x Hx. destruct (J2 x (Hno x Hx)) as [-> _]. now destruct (H1 x Hx) as [-> _]. }
    exists ord, others, K. split; [exact Hp|]. split; [exact Ho|]. split; [intros q Hq; split; [now apply Hlt|split; [now apply Hua|now apply HK]]|].
    assert (Hdo : NoDup others) by (apply (Permutation_NoDup Ho) in Hnd; apply NoDup_cons_iff in Hnd; apply proj2, NoDup_app_remove_l in Hnd; exact Hnd).
    unfold partition_sum. rewrite (total_split fs pots T ev xs Hnd r _ Ho'), <- (sum_product b T others Hdo (fun _ => 0)). fold C. unfold state_sum. rewrite <- rsum_scal.
    apply rsum_ext. intros s Hs. apply in_seq in Hs. apply Hm. lia.
  Qed.

  Lemma state_sum_pos x : In x xs -> (0 < state_sum T b x)%R.
  Proof.
    intros Hx. unfold state_sum. apply rsum_pos; [specialize (Hpos x Hx); destruct (snd x); [lia|discriminate]|].
    intros y Hy. apply in_map_iff in Hy. destruct Hy as [s [<- _]]. apply exp_pos.
  Qed.
  (** The constant of a factor is the ratio of its sum and that of its parent. *)
  Lemma config_sum_parent q K : fst q < length fs -> snd q < arity fs (fst q) ->
    (forall s, s < snd (svar fs q) -> rsum (map (fun c => exp (ex q c / T)) (choices fs (fst q) (snd q) s)) = K) ->
    config_sum fs pots T b m (fst q) = (K * state_sum T b (svar fs q))%R.
  Proof.
    intros Hf Hu HK. unfold config_sum, state_sum.
    rewrite <- (choices_partition fs Hcfg (fun c => exp (config_belief fs pots b m (fst q) c / T)) (fst q) (snd q) Hf Hu).
    rewrite <- rsum_scal. apply rsum_ext. intros s Hs. apply in_seq in Hs. fold (svar fs q) in Hs. rewrite <- (HK s) by lia.
    rewrite Rmult_comm, <- rsum_scal. apply rsum_ext. intros c Hc. apply choice_iff in Hc. rewrite <- exp_plus. f_equal.
    unfold ex, excess. rewrite (proj2 Hc). rewrite <- (cb_score fs pots ev m (fst q) c Hf). fold b. field. exact HT.
  Qed.
  Lemma partition_bethe : acyclic fs -> (forall f, f < length fs -> 0 < arity fs f) ->
    (T * ln (partition_sum fs pots T ev xs) = bethe fs pots T b m xs)%R.
  Proof.
    intros Hac Har. destruct xs as [|r ys] eqn:Exs.
    { assert (E0 : length fs = 0).
      { destruct (length fs) as [|k] eqn:E0; [reflexivity|exfalso]. apply (Hxs (var_at fs 0 0)), var_in_edges; [lia|]. apply Har. lia. }
      unfold partition_sum, bethe, state_weight. rewrite E0. cbn [sum_states map seq]. rewrite rsum_nil, Rplus_0_r, Rmult_0_r. cbn [rprod SpecSum.rprod fold_right].
      rewrite Rmult_1_r. replace (0 / T)%R with 0%R by (field; exact HT). rewrite exp_0, ln_1. ring. }
    rewrite <- Exs in *. assert (Hr : In r xs) by (rewrite Exs; now left). clear Exs.
    destruct (sum_exact_order r Hac Har Hr) as [ord [others [K [Hp [Ho [HK E]]]]]]. rewrite E. unfold bethe. f_equal.
    assert (Hoth : forall x, In x others -> In x xs) by (intros x Hx; apply (Permutation_in _ (Permutation_sym Ho)); right; apply in_or_app; now right).
    assert (P1 : (0 < rprod (map K ord))%R) by (apply rprod_pos; intros x Hx; apply in_map_iff in Hx; destruct Hx as [q [<- Hq]]; apply (HK q Hq)).
    assert (P2 : (0 < rprod (map (state_sum T b) others))%R) by (apply rprod_pos; intros x Hx; apply in_map_iff in Hx; destruct Hx as [q [<- Hq]]; apply state_sum_pos; now apply Hoth).
    pose proof (state_sum_pos r Hr) as P3.
    rewrite ln_mult by (auto; now apply Rmult_lt_0_compat). rewrite ln_mult by assumption.
    rewrite (ln_rprod K ord) by (intros q Hq; apply (HK q Hq)). rewrite (ln_rprod _ others) by (intros x Hx; apply state_sum_pos; now apply Hoth).
    rewrite (rsum_perm _ _ (Permutation_map (fun x => ln (state_sum T b x)) Ho)). cbn [map]. rewrite rsum_cons, map_app, rsum_app, rsum_flat_map.
    rewrite <- (rsum_perm _ _ (Permutation_map _ Hp)), map_map.
    match goal with |- (?p + ?q + ?s = ?s + (?t + ?q) + ?w)%R => enough (H : (p = t + w)%R) by (rewrite H; ring) end.
    rewrite <- rsum_plus. apply rsum_ext. intros q Hq. destruct (HK q Hq) as [Hf [Hu [Kp Ks]]].
    rewrite (config_sum_parent q (K q) Hf Hu Ks), ln_mult; [|exact Kp|apply state_sum_pos, Hxs; now apply var_in_edges].
    rewrite (rsum_remove (fun u => ln (state_sum T b (var_at fs (fst q) u))) (seq 0 (arity fs (fst q))) (snd q)); [|apply seq_NoDup|apply in_seq; lia].
    unfold kids. rewrite map_map. unfold svar. ring.
  Qed.
End Exact.

(** Only the beliefs and messages of existing states matter. *)
Lemma bethe_ext {A} (fs : list (sfactor A)) pots T b b' m m' xs : configs_ok fs -> incl (sf_edges fs) xs ->
  (forall x s, In x xs -> s < snd x -> b x s = b' x s) -> msg_eq fs m m' -> bethe fs pots T b m xs = bethe fs pots T b' m' xs.
Proof.
  intros Hcfg Hxs Hb Hm. assert (Hs : forall x, In x xs -> state_sum T b x = state_sum T b' x).
  { intros x Hx. unfold state_sum. apply rsum_ext. intros s Hs. apply in_seq in Hs. rewrite Hb by (auto; lia). reflexivity. }
  unfold bethe. f_equal. f_equal; apply rsum_ext.
  - intros x Hx. now rewrite Hs.
  - intros f Hf. apply in_seq in Hf. f_equal.
    + f_equal. unfold config_sum. apply rsum_ext. intros c Hc. apply in_seq in Hc. f_equal. f_equal. unfold config_belief. f_equal. apply rsum_ext.
      intros u Hu. apply in_seq in Hu. pose proof (config_ok fs Hcfg f c u ltac:(lia) ltac:(lia) ltac:(lia)) as Hlt.
      rewrite Hb by (auto; apply Hxs, var_in_edges; lia). rewrite (Hm f u) by (auto; lia). reflexivity.
    + apply rsum_ext. intros u Hu. apply in_seq in Hu. rewrite Hs; [reflexivity|]. apply Hxs, var_in_edges; lia.
Qed.
Lemma C72_text_lemma {A} (fs : list (sfactor A)) pots T ev xs m n :
  T <> 0%R -> acyclic fs -> configs_ok fs -> covered fs -> (forall f, f < length fs -> 0 < arity fs f) ->
  NoDup xs -> incl (sf_edges fs) xs -> (forall x, In x xs -> 0 < snd x) ->
  length fs <= n ->
  (forall i, i < n -> unclipped fs (fac_to_var fs pots T (var_to_fac fs ev (text_bp fs pots T 0 ev m i)))) ->
  (T * ln (partition_sum fs pots T ev xs) = bethe fs pots T (text_belief fs ev (text_bp fs pots T 0 ev m n)) (text_bp fs pots T 0 ev m n) xs)%R.
Proof.
  intros HT Hac Hcfg Hcov Har Hnd Hxs Hpos Hn Hun.
  assert (Hfix : forall f u, f < length fs -> u < arity fs f ->
    upto_at fs (fac_to_var_soft fs pots T (var_to_fac fs ev (text_bp fs pots T 0 ev m n))) (text_bp fs pots T 0 ev m n) f u).
  { intros f u Hf Hu. rewrite <- fac_to_var_pos by exact HT. now apply converged. }
  now apply partition_bethe.
Qed.

Section Code.
  Context (vgs : list vgroup) (g : fgraph R) (T : R) (c : bp_ctx R).
  Hypothesis Hok : groups_ok vgs.
  Hypothesis Hr : reachable vgs g.
  Hypothesis Hwf : wf_groups (gr_groups g).
  Hypothesis Hbp : bp_of g T c.
  Context (a : bp_arrays R).
  Hypothesis Ha : arrays_of c a.
  Let fs := graph_factors 0%R (gr_groups g).
  Let pots := graph_pots (gr_groups g) (ba_log_potentials a).
  Let ne := length (enum_factors (gr_groups g)).
  Let lens := map snd (sf_edges fs).
  Let ev := read_ev (gr_vars_to_starts g) (ba_evidence a).
  Let xs := all_vars vgs.
  Let text := text_bp fs pots T 0 ev (read_msgs fs (ba_ftov_msgs a)).
  Context (n : nat).
  Hypothesis HT : T <> 0%R.
  Hypothesis Hpos : forall gr k, In gr vgs -> In k (vg_num_states gr) -> 0 < k.
  Hypothesis Hac : acyclic fs.
  Hypothesis Har : forall f, f < length fs -> 0 < arity fs f.
  Hypothesis Hn : length fs <= n.
  Hypothesis Hun : forall i, i < n -> unclipped fs (fac_to_var fs pots T (var_to_fac fs ev (text i))).
  Hypothesis Hsup : supported lens.
  Hypothesis Hfl : forall i, i <= n -> above_floor lens (unnormalised c a 0 i).
  Hypothesis Hir : forall i, i < n -> in_range fs pots ne T (var_to_fac fs ev (text i)).
  Let m := read_msgs fs (ba_ftov_msgs (run_bp c a n 0%R)).

  Lemma C72_partition_lemma : exists r b, get_beliefs c (run_bp c a n 0%R) = Ok r /\ belief_table vgs r b /\
    (T * ln (partition_sum fs pots T ev xs) = bethe fs pots T b m xs)%R.
  Proof.
    pose proof (sum_run_arrays vgs g T c Hok Hr Hwf Hbp a Ha n) as Ha'.
    destruct (tables_belief vgs g T c Hok Hr Hwf Hbp (run_bp c a n 0%R) Ha' Hpos) as [r [Er Tr]].
    exists r, (text_belief fs ev m). split; [exact Er|]. split; [exact Tr|].
    assert (Hm : msg_eq fs m (text n)) by (apply (C39_lemma vgs g T c Hok Hr Hwf Hbp a Ha 0%R n Hsup Hfl Hir)).
    assert (Hcov : covered fs). { destruct (Nat.eq_dec n 0) as [E|Hne]; [intros f u s Hf; lia|]. apply (in_range_covered g T Hwf a _ (Hir 0 ltac:(lia))). }
    assert (Hin : incl (sf_edges fs) xs) by exact (edges_in vgs g T c Hok Hr Hwf Hbp).
    rewrite (bethe_ext fs pots T (text_belief fs ev m) (text_belief fs ev (text n)) m (text n) xs (graph_configs_ok (gr_groups g) Hwf) Hin); [| |exact Hm].
    - apply C72_text_lemma; auto; [now apply graph_configs_ok|now apply all_vars_NoDup|]. exact (var_some vgs Hok Hpos).
    - intros x s Hx Hs. symmetry. rewrite (text_belief_shift fs ev ev 0%R m (text n) x s); [lra|lra|exact Hm|exact Hs].
  Qed.
End Code.
Lemma C72_small_lemma vgs (g : fgraph R) T (c : bp_ctx R) : groups_ok vgs -> reachable vgs g -> wf_groups (gr_groups g) -> bp_of g T c ->
  forall a, arrays_of c a ->
  let fs := graph_factors 0%R (gr_groups g) in
  let pots := graph_pots (gr_groups g) (ba_log_potentials a) in
  let ev := read_ev (gr_vars_to_starts g) (ba_evidence a) in
  let lens := map snd (sf_edges fs) in
  (0 < T)%R ->
  (forall gr k, In gr vgs -> In k (vg_num_states gr) -> 0 < k) ->
  acyclic fs -> (forall f, f < length fs -> 0 < arity fs f) ->
  forall B P D K P' B' M' N', moderate fs pots (length (enum_factors (gr_groups g))) ev B P D K ->
  small fs T pots ev (read_msgs fs (ba_ftov_msgs a)) P' B' M' N' ->
  supported lens -> above_floor lens (ba_ftov_msgs a) ->
  forall n, length fs <= n ->
  exists r b, get_beliefs c (run_bp c a n 0%R) = Ok r /\ belief_table vgs r b /\
    (T * ln (partition_sum fs pots T ev (all_vars vgs)) = bethe fs pots T b (read_msgs fs (ba_ftov_msgs (run_bp c a n 0%R))) (all_vars vgs))%R.
Proof.
  intros Hok Hr Hwf Hbp a Ha fs pots ev lens HT Hpos Hac Har B P D K P' B' M' N' Hmod Hsm Hsup Hfl n Hn.
  destruct (small_given vgs g T c Hok Hr Hwf Hbp a Ha B P D K Hmod ltac:(lra) Hsup Hfl Hac P' B' M' N' Hsm) as [G1 [G2 G3]].
  apply (C72_partition_lemma vgs g T c Hok Hr Hwf Hbp a Ha n); auto. lra.
Qed.
