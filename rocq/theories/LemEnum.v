(** * Proofs about the messages of enumeration factors (C24, C25, C41). *)
From Verif Require Import NumPy Lists FGraph BP SpecWiring SpecState SpecBP LemNum LemNorm LemVtoF.
From Coq Require Import Reals Lra Lia.
Local Open Scope nat_scope.

Section Enum.
  Context {A : Type} (fs : list (sfactor A)).
  Hypothesis Hcfg : configs_ok fs.

  Let nconf f := length (sf_configs (factor_at fs f)).

  Lemma config_lt f c u : f < length fs -> c < nconf f -> u < arity fs f -> config_at_slot fs f c u < snd (var_at fs f u).
  Proof. intros Hf Hc Hu. destruct (Hcfg f c u Hf Hc) as [_ H]. specialize (H Hu). unfold config_at_slot. lia. Qed.

  Lemma slot_index_inj f u s f' u' s' :
    f < length fs -> u < arity fs f -> s < snd (var_at fs f u) ->
    f' < length fs -> u' < arity fs f' -> s' < snd (var_at fs f' u') ->
    slot_index fs f u s = slot_index fs f' u' s' -> f = f' /\ u = u' /\ s = s'.
  Proof.
    intros Hf Hu Hs Hf' Hu' Hs' E. unfold slot_index, edge_start in E.
    assert (H1 : In (f, u) (slots fs)) by (apply In_slots; auto). assert (H2 : In (f', u') (slots fs)) by (apply In_slots; auto).
    pose proof (edge_no_lt fs _ H1) as L1. pose proof (edge_no_lt fs _ H2) as L2. unfold edge_no in L1, L2. cbn [fst snd] in L1, L2.
    destruct (off_inj (map snd (sf_edges fs)) (sf_first_edge fs f + u) s (sf_first_edge fs f' + u') s') as [E1 E2];
      rewrite ?map_length, ?slot_states; auto.
    assert (E3 : (f, u) = (f', u')) by (apply (edge_no_inj fs); auto). injection E3 as -> ->. auto.
  Qed.

  (** Rows as a map over factor, configuration and slot. *)
  Definition triples : list (nat * (nat * nat)) :=
    flat_map (fun f => flat_map (fun c => map (fun u => (f, (c, u))) (seq 0 (arity fs f))) (seq 0 (nconf f))) (seq 0 (length fs)).
  Definition t_cfg (t : nat * (nat * nat)) : Z := Z.of_nat (sf_first_config fs (fst t) + fst (snd t)).
  Definition t_est (t : nat * (nat * nat)) : Z :=
    Z.of_nat (slot_index fs (fst t) (snd (snd t)) (config_at_slot fs (fst t) (fst (snd t)) (snd (snd t)))).
  Lemma In_triples f c u : In (f, (c, u)) triples <-> f < length fs /\ c < nconf f /\ u < arity fs f.
  Proof.
    unfold triples. rewrite in_flat_map. split.
    - intros [f' [Hf H]]. apply in_seq in Hf. apply in_flat_map in H. destruct H as [c' [Hc H]]. apply in_seq in Hc.
      apply in_map_iff in H. destruct H as [u' [E Hu]]. apply in_seq in Hu. injection E as -> -> ->. lia.
    - intros [Hf [Hc Hu]]. exists f. split; [apply in_seq; lia|]. apply in_flat_map. exists c. split; [apply in_seq; lia|].
      apply in_map_iff. exists u. split; [reflexivity|apply in_seq; lia].
  Qed.
  Lemma rows_triples : map fst (sf_rows fs) = map t_cfg triples /\ map snd (sf_rows fs) = map t_est triples.
  Proof.
    assert (E : sf_rows fs = map (fun t => (t_cfg t, t_est t)) triples).
    { unfold sf_rows, triples. rewrite !flat_map_concat_map, concat_map, map_map. f_equal. apply map_ext_in. intros f Hf. apply in_seq in Hf.
      rewrite !flat_map_concat_map, concat_map, map_map. f_equal. apply map_ext_in. intros c Hc. apply in_seq in Hc.
      rewrite map_map. apply map_ext_in. intros u Hu. apply in_seq in Hu. unfold sf_row, t_cfg, t_est. cbn [fst snd]. f_equal.
      unfold slot_index, config_at_slot. fold (factor_at fs f).
      destruct (Hcfg f c u) as [_ H]; [lia|unfold nconf in *; lia|]. specialize (H (proj2 Hu)). unfold factor_at in *. lia. }
    rewrite E, !map_map. split; reflexivity.
  Qed.

  Context (vt lp : list R).
  Hypothesis Hvt : length vt = total_states fs.
  Hypothesis Hlp : length lp = total_configs fs.
  Let v := read_msgs fs vt.
  Let pots := read_pots fs lp.

  Lemma t_est_lt t : In t triples -> (0 <= t_est t < Z.of_nat (length vt))%Z.
  Proof.
    destruct t as [f [c u]]. intros H. apply In_triples in H. unfold t_est. cbn [fst snd].
    pose proof (slot_index_lt fs f u (config_at_slot fs f c u)) as L. rewrite Hvt.
    assert (slot_index fs f u (config_at_slot fs f c u) < total_states fs); [|lia]. apply L; try tauto. apply config_lt; tauto.
  Qed.
  Lemma gather_est : gather 0%R vt (map t_est triples)
    = map (fun t => v (fst t) (snd (snd t)) (config_at_slot fs (fst t) (fst (snd t)) (snd (snd t)))) triples.
  Proof.
    unfold gather. rewrite map_map. apply map_ext_in. intros t Ht. rewrite gather1_in by now apply t_est_lt.
    unfold t_est. rewrite Nat2Z.id. reflexivity.
  Qed.

  Let nc := list_sum (map (fun F : sfactor A => length (sf_configs F)) fs).
  Lemma nconf_nth f : f < length fs -> nth f (map (fun F => length (sf_configs F)) fs) 0 = nconf f.
  Proof. intros Hf. now rewrite (nth_map _ _ _ _ (SF [] [] [])) by exact Hf. Qed.
  Lemma first_config_lt f c : f < length fs -> c < nconf f -> sf_first_config fs f + c < nc.
  Proof. intros Hf Hc. apply off_block_lt; [now rewrite map_length|now rewrite nconf_nth]. Qed.
  Lemma t_cfg_filter f c : f < length fs -> c < nconf f ->
    filter (fun t => (t_cfg t =? Z.of_nat (sf_first_config fs f + c))%Z) triples = map (fun u => (f, (c, u))) (seq 0 (arity fs f)).
  Proof.
    intros Hf Hc. unfold triples. rewrite filter_flat_map.
    assert (X : forall f' c' u', f' < length fs -> c' < nconf f' ->
               t_cfg (f', (c', u')) = Z.of_nat (sf_first_config fs f + c) -> f' = f /\ c' = c).
    { intros f' c' u' Hf' Hc' E. unfold t_cfg in E. cbn [fst snd] in E. apply Nat2Z.inj in E. unfold sf_first_config in E.
      apply off_inj in E; rewrite ?map_length, ?nconf_nth; auto. }
    rewrite (flat_map_only _ (length fs) f Hf).
    - rewrite filter_flat_map. rewrite (flat_map_only _ (nconf f) c Hc).
      + rewrite filter_map. f_equal. rewrite (filter_ext _ (fun _ => true)); [clear; induction (seq 0 (arity fs f)) as [|x l IH]; cbn; congruence|].
        intros u. apply Z.eqb_refl.
      + intros c' Hc' Hne. apply filter_none. intros t Ht. apply in_map_iff in Ht. destruct Ht as [u' [<- _]].
        apply Z.eqb_neq. intros E. destruct (X f c' u' Hf Hc' E). congruence.
    - intros f' Hf' Hne. apply filter_none. intros t Ht. apply in_flat_map in Ht. destruct Ht as [c' [Hc' Ht]]. apply in_seq in Hc'.
      apply in_map_iff in Ht. destruct Ht as [u' [<- _]]. apply Z.eqb_neq. intros E. destruct (X f' c' u' Hf' (proj2 Hc') E). congruence.
  Qed.
  Lemma t_est_filter f u s : f < length fs -> u < arity fs f -> s < snd (var_at fs f u) ->
    filter (fun t => (t_est t =? Z.of_nat (slot_index fs f u s))%Z) triples = map (fun c => (f, (c, u))) (choices fs f u s).
  Proof.
    intros Hf Hu Hs. unfold triples. rewrite filter_flat_map.
    assert (X : forall f' c' u', f' < length fs -> c' < nconf f' -> u' < arity fs f' ->
               t_est (f', (c', u')) = Z.of_nat (slot_index fs f u s) -> f' = f /\ u' = u /\ config_at_slot fs f' c' u' = s).
    { intros f' c' u' Hf' Hc' Hu' E. unfold t_est in E. cbn [fst snd] in E. apply Nat2Z.inj in E.
      apply slot_index_inj in E; auto. now apply config_lt. }
    rewrite (flat_map_only _ (length fs) f Hf).
    - rewrite filter_flat_map. unfold choices. fold (nconf f). rewrite <- flat_map_if. apply flat_map_ext_in. intros c Hc. apply in_seq in Hc.
      rewrite filter_map. destruct (Nat.eqb_spec (config_at_slot fs f c u) s) as [E|E].
      + rewrite (filter_ext_in _ (fun u' => u' =? u)); [now rewrite filter_seq_eq|]. intros u' Hu'. apply in_seq in Hu'.
        destruct (Nat.eqb_spec u' u) as [->|Hne].
        * apply Z.eqb_eq. unfold t_est. cbn [fst snd]. now rewrite E.
        * apply Z.eqb_neq. intros F. destruct (X f c u') as [_ [F2 _]]; auto; lia.
      + rewrite filter_none; [reflexivity|]. intros u' Hu'. apply in_seq in Hu'. apply Z.eqb_neq. intros F.
        destruct (X f c u') as [_ [F2 F3]]; auto; try lia. congruence.
    - intros f' Hf' Hne. apply filter_none. intros t Ht. apply in_flat_map in Ht. destruct Ht as [c' [Hc' Ht]]. apply in_seq in Hc'.
      apply in_map_iff in Ht. destruct Ht as [u' [<- Hu']]. apply in_seq in Hu'. apply Z.eqb_neq. intros E.
      destruct (X f' c' u' Hf' (proj2 Hc') (proj2 Hu') E). congruence.
  Qed.

  Let summary := vadd (scatter nadd (repeat 0%R nc) (map t_cfg triples) (gather 0%R vt (map t_est triples))) lp.
  Lemma summary_length : length summary = nc.
  Proof. unfold summary, vadd. rewrite map2_length, scatter_length, repeat_length, Hlp. unfold total_configs, nc. lia. Qed.
  Lemma nth_summary f c : f < length fs -> c < nconf f -> nth (sf_first_config fs f + c) summary 0%R = score fs pots v f c.
  Proof.
    intros Hf Hc. pose proof (first_config_lt f c Hf Hc) as L. unfold summary, vadd.
    rewrite (nth_map2 _ _ _ _ _ 0%R 0%R) by (rewrite ?scatter_length, ?repeat_length, ?Hlp; unfold total_configs; fold nc; exact L).
    rewrite nadd_R, gather_est, nth_scatter_add; [|intros; unfold t_cfg; lia|now rewrite repeat_length].
    rewrite nth_repeat_R, t_cfg_filter, map_map by assumption. cbn [fst snd]. unfold score, pots, read_pots. lra.
  Qed.
  Lemma gather_summary : gather 0%R summary (map t_cfg triples) = map (fun t => score fs pots v (fst t) (fst (snd t))) triples.
  Proof.
    unfold gather. rewrite map_map. apply map_ext_in. intros [f [c u]] Ht. apply In_triples in Ht. unfold t_cfg. cbn [fst snd].
    rewrite gather1_in; [rewrite Nat2Z.id; apply nth_summary; tauto|]. rewrite summary_length.
    pose proof (first_config_lt f c). assert (sf_first_config fs f + c < nc) by tauto. lia.
  Qed.

  Let maxes := scatter nmax (repeat neg_inf (length vt)) (map t_est triples) (gather 0%R summary (map t_cfg triples)).
  Lemma nth_maxes f u s : f < length fs -> u < arity fs f -> s < snd (var_at fs f u) ->
    nth (slot_index fs f u s) maxes 0%R = rmax neg_inf (map (score fs pots v f) (choices fs f u s)).
  Proof.
    intros Hf Hu Hs. pose proof (slot_index_lt fs f u s Hf Hu Hs) as L. unfold maxes. rewrite gather_summary.
    rewrite nth_scatter_max; [|intros; unfold t_est; lia|rewrite repeat_length; lia].
    rewrite nth_repeat_lt by lia. rewrite t_est_filter, map_map by assumption. reflexivity.
  Qed.
  Lemma maxes_length : length maxes = length vt.
  Proof. unfold maxes. now rewrite scatter_length, repeat_length. Qed.

  Lemma code_max T : pass_enum_fac_to_var_messages vt (sf_rows fs) lp nc T
    = if neqb T 0%R then vsub maxes vt else
      vadd (vsub maxes vt) (map (fun x => T * ln x)%R (scatter nadd (repeat 0%R (length vt)) (map t_est triples)
        (map2 (fun s m => exp ((s - m) / T))%R (gather 0%R summary (map t_cfg triples)) (gather 0%R maxes (map t_est triples))))).
  Proof. unfold pass_enum_fac_to_var_messages. destruct rows_triples as [-> ->]. reflexivity. Qed.

  Lemma enum_max_lemma :
    msg_eq fs (read_msgs fs (pass_enum_fac_to_var_messages vt (sf_rows fs) lp nc 0%R)) (fac_to_var_floor fs pots v).
  Proof.
    intros f u s Hf Hu Hs. pose proof (slot_index_lt fs f u s Hf Hu Hs) as L. rewrite code_max.
    replace (neqb 0%R 0%R) with true by (symmetry; now apply neqb_R). unfold read_msgs at 1, vsub.
    rewrite (nth_map2 _ _ _ _ _ 0%R 0%R) by (rewrite ?maxes_length; lia). rewrite nsub_R, nth_maxes by assumption. reflexivity.
  Qed.

  Lemma In_choices f u s c : In c (choices fs f u s) <-> c < nconf f /\ config_at_slot fs f c u = s.
  Proof. unfold choices. rewrite filter_In, in_seq, Nat.eqb_eq. unfold nconf. intuition lia. Qed.

  Lemma map2_map {X Y Z W} (h : Y -> Z -> W) (a : X -> Y) (b : X -> Z) l : map2 h (map a l) (map b l) = map (fun x => h (a x) (b x)) l.
  Proof. induction l as [|x l IH]; [reflexivity|]. cbn [map map2]. now rewrite IH. Qed.

  Lemma score_split f c u w : f < length fs -> u < arity fs f ->
    (score fs pots w f c = score_but fs pots w f c u + w f u (config_at_slot fs f c u))%R.
  Proof.
    intros Hf Hu. unfold score, score_but.
    rewrite (rsum_remove (fun u => w f u (config_at_slot fs f c u)) (seq 0 (arity fs f)) u); [lra|apply seq_NoDup|apply in_seq; lia].
  Qed.

  Lemma enum_soft_lemma T : T <> 0%R ->
    forall f u s, f < length fs -> u < arity fs f -> s < snd (var_at fs f u) -> choices fs f u s <> [] ->
    read_msgs fs (pass_enum_fac_to_var_messages vt (sf_rows fs) lp nc T) f u s = fac_to_var_soft fs pots T v f u s.
  Proof.
    intros HT f u s Hf Hu Hs Hch. pose proof (slot_index_lt fs f u s Hf Hu Hs) as L. rewrite code_max.
    replace (neqb T 0%R) with false by (symmetry; now apply neqb_R_false). unfold read_msgs at 1, vsub, vadd.
    assert (Lv : length (map2 nsub maxes vt) = length vt) by (rewrite map2_length, maxes_length; lia).
    rewrite (nth_map2 _ _ _ _ _ 0%R 0%R) by (rewrite ?map_length, ?scatter_length, ?repeat_length; lia).
    rewrite (nth_map2 _ _ _ _ _ 0%R 0%R) by (rewrite ?maxes_length; lia).
    rewrite (nth_map _ _ _ _ 0%R) by (rewrite scatter_length, repeat_length; lia).
    rewrite gather_summary.
    assert (G : gather 0%R maxes (map t_est triples)
                = map (fun t => nth (Z.to_nat (t_est t)) maxes 0%R) triples).
    { unfold gather. rewrite map_map. apply map_ext_in. intros t Ht. apply gather1_in. rewrite maxes_length. now apply t_est_lt. }
    rewrite G, map2_map, nth_scatter_add; [|intros; unfold t_est; lia|rewrite repeat_length; lia].
    rewrite nth_repeat_R, t_est_filter, map_map by assumption. cbn [fst snd].
    rewrite nadd_R, nsub_R, nth_maxes by assumption. set (M := rmax neg_inf _).
    change (nth (slot_index fs f u s) vt 0%R) with (v f u s).
    unfold fac_to_var_soft.
    assert (E : map (fun c => exp ((score fs pots v f c - nth (Z.to_nat (t_est (f, (c, u)))) maxes 0) / T))%R (choices fs f u s)
                = map (fun c => exp ((v f u s - M) / T) * exp (score_but fs pots v f c u / T))%R (choices fs f u s)).
    { apply map_ext_in. intros c Hc. apply In_choices in Hc. destruct Hc as [Hc Ec]. unfold t_est. cbn [fst snd].
      rewrite Nat2Z.id, Ec, nth_maxes by assumption. fold M. rewrite <- exp_plus. f_equal. rewrite (score_split f c u) by assumption.
      rewrite Ec. field. exact HT. }
    rewrite E, rsum_scal, Rplus_0_l.
    assert (P : (0 < rsum (map (fun c => exp (score_but fs pots v f c u / T)) (choices fs f u s)))%R).
    { apply rsum_pos; [destruct (choices fs f u s); [contradiction|discriminate]|].
      intros x Hx; apply in_map_iff in Hx; destruct Hx as [c [<- _]]; apply exp_pos. }
    rewrite ln_mult; [|apply exp_pos|exact P]. rewrite ln_exp. field. exact HT.
  Qed.
End Enum.

(** ** Clean forms *)
Section Clean.
  Context {A : Type} (fs : list (sfactor A)) (pots : nat -> nat -> R).
  Local Open Scope R_scope.

  Lemma floor_max (v : msg) f u s : (f < length fs)%nat -> (u < arity fs f)%nat ->
    (exists c, In c (choices fs f u s) /\ neg_inf <= score fs pots v f c) ->
    fac_to_var_floor fs pots v f u s = fac_to_var_max fs pots v f u s.
  Proof.
    intros Hf Hu [c0 [Hc0 Hge]]. unfold fac_to_var_floor, fac_to_var_max.
    assert (Hne : choices fs f u s <> []) by (intros E; rewrite E in Hc0; destruct Hc0).
    rewrite rmax_rmaxs by (destruct (choices fs f u s); [contradiction|discriminate]).
    rewrite Rmax_right.
    2:{ apply Rle_trans with (score fs pots v f c0); [exact Hge|]. apply rmaxs_ub. now apply in_map. }
    rewrite (map_ext_in (score fs pots v f) (fun c => score_but fs pots v f c u + v f u s)).
    - rewrite rmaxs_shift by exact Hne. lra.
    - intros c Hc. unfold choices in Hc. apply filter_In in Hc. destruct Hc as [_ Ec]. apply Nat.eqb_eq in Ec.
      unfold score, score_but. rewrite (rsum_remove (fun u => v f u (config_at_slot fs f c u)) (seq 0 (arity fs f)) u); [rewrite Ec; lra|apply seq_NoDup|apply in_seq; lia].
  Qed.

  Lemma floor_none (v : msg) f u s : choices fs f u s = [] -> fac_to_var_floor fs pots v f u s = neg_inf - v f u s.
  Proof. intros E. unfold fac_to_var_floor. now rewrite E. Qed.

  Lemma exp_le x y : x <= y -> exp x <= exp y.
  Proof. intros [H| ->]; [left; now apply exp_increasing|apply Rle_refl]. Qed.
  Lemma ln_le x y : 0 < x -> x <= y -> ln x <= ln y.
  Proof. intros Hx [H| ->]; [left; now apply ln_increasing|apply Rle_refl]. Qed.

  (** The soft maximum of a non-empty list. *)
  Lemma soft_bounds {X} (g : X -> R) l T : 0 < T -> l <> [] ->
    rmaxs (map g l) <= T * ln (rsum (map (fun c => exp (g c / T)) l)) <= rmaxs (map g l) + T * ln (INR (length l)).
  Proof.
    intros HT Hne. set (M := rmaxs (map g l)).
    assert (HM : In M (map g l)) by (apply rmaxs_In; destruct l; [contradiction|discriminate]).
    apply in_map_iff in HM. destruct HM as [c0 [E0 H0]].
    assert (L : exp (M / T) <= rsum (map (fun c => exp (g c / T)) l)).
    { apply In_rsum_le; [|intros y Hy; apply in_map_iff in Hy; destruct Hy as [c [<- _]]; left; apply exp_pos].
      apply in_map_iff. exists c0. now rewrite E0. }
    assert (U : rsum (map (fun c => exp (g c / T)) l) <= INR (length l) * exp (M / T)).
    { rewrite <- rsum_const. apply rsum_le. intros c Hc. apply exp_le. apply Rmult_le_compat_r; [left; now apply Rinv_0_lt_compat|].
      apply rmaxs_ub. now apply in_map. }
    assert (HI : 0 < INR (length l)) by (apply lt_0_INR; destruct l; [contradiction|cbn; lia]).
    split.
    - apply Rle_trans with (T * (M / T)); [right; field; lra|]. apply Rmult_le_compat_l; [lra|].
      rewrite <- (ln_exp (M / T)). apply ln_le; [apply exp_pos|exact L].
    - apply Rle_trans with (T * ln (INR (length l) * exp (M / T))).
      + apply Rmult_le_compat_l; [lra|]. apply ln_le; [|exact U]. pose proof (exp_pos (M / T)). lra.
      + rewrite ln_mult; [|exact HI|apply exp_pos]. rewrite ln_exp. right. field. lra.
  Qed.
  Lemma choices_length f u s : (length (choices fs f u s) <= length (sf_configs (factor_at fs f)))%nat.
  Proof. unfold choices. rewrite <- (seq_length (length (sf_configs (factor_at fs f))) 0) at 2. generalize (seq 0 (length (sf_configs (factor_at fs f)))).
    intros l. induction l as [|x l IH]; [cbn; lia|]. cbn [filter]. destruct (_ =? _)%nat; cbn [length]; lia. Qed.
  Lemma soft_max (v : msg) f u s T : 0 < T -> choices fs f u s <> [] ->
    fac_to_var_max fs pots v f u s <= fac_to_var_soft fs pots T v f u s
      <= fac_to_var_max fs pots v f u s + T * ln (INR (length (choices fs f u s))) /\
    ln (INR (length (choices fs f u s))) <= ln (INR (length (sf_configs (factor_at fs f)))).
  Proof.
    intros HT Hne. split; [apply (soft_bounds (fun c => score_but fs pots v f c u) _ T HT Hne)|].
    apply ln_le; [apply lt_0_INR; destruct (choices fs f u s); [contradiction|cbn; lia]|]. apply le_INR, choices_length.
  Qed.
End Clean.
