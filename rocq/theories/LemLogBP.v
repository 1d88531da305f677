(** * Messages of logical factors agree with enumeration (C26, C27, C28). *)
From Verif Require Import NumPy Lists FGraph BP SpecFactor SpecWiring SpecState SpecBP LemNum LemNorm LemVtoF LemEnum LemLogCode LemLogical LemBrute LemBruteSoft.
From Coq Require Import Reals Lra Lia.
Local Open Scope nat_scope.

Lemma filter_all_true {X} (q : X -> bool) l : (forall x, In x l -> q x = true) -> filter q l = l.
Proof.
  induction l as [|x l IH]; intros H; [reflexivity|]. cbn [filter]. rewrite H by now left. f_equal. apply IH. intros; apply H; now right.
Qed.

(** ** Scores of the enumerated configurations *)
Section Bridge.
  Context {A : Type} (z : A) (t : ftype) (vss : list (list variable)).
  Hypothesis Hok : logical_ok vss.
  Hypothesis Ht : t <> TEnum.
  Let fs := map (logical_sf z t) vss.
  Let k f := nth f (par_counts vss) 0.
  Context (v : msg).
  Definition no_pots : nat -> nat -> R := fun _ _ => 0%R.

  Lemma scores_rows f u s : f < length vss ->
    map (fun c => score_but fs no_pots v f c u) (choices fs f u s)
    = map (fun b => (0 + rsum (map (fun u' => v f u' (Z.to_nat (nth u' (b ++ [connective t b]) 0%Z))) (filter (fun u' => negb (u' =? u)) (seq 0 (S (k f))))))%R)
        (filter (fun b => Z.to_nat (nth u (b ++ [connective t b]) 0%Z) =? s) (bools (k f))).
  Proof.
    intros Hf. unfold choices, score_but, no_pots, config_at_slot, fs.
    rewrite (arity_logical z t vss Hok f Hf). rewrite (factor_logical z t vss f Hf). cbn [logical_sf sf_configs].
    replace (length (nth f vss []) - 1) with (k f) by (unfold k; now rewrite (k_nth vss f Hf)).
    fold (k f).
    rewrite (map_nth_filter (fun row => (0 + rsum (map (fun u' => v f u' (Z.to_nat (nth u' row 0%Z))) (filter (fun u' => negb (u' =? u)) (seq 0 (S (k f))))))%R)
      (fun row => Z.to_nat (nth u row 0%Z) =? s) (logical_configs t (k f)) []).
    unfold logical_configs. rewrite filter_map, map_map. reflexivity.
  Qed.
  Lemma nth_row kk b j : In b (bools kk) -> j < kk -> Z.to_nat (nth j (b ++ [connective t b]) 0%Z) = val b j.
  Proof. intros Hb Hj. apply In_bools in Hb. rewrite app_nth1 by lia. reflexivity. Qed.
  Lemma nth_row_last kk b : In b (bools kk) -> Z.to_nat (nth kk (b ++ [connective t b]) 0%Z) = out t b.
  Proof. intros Hb. apply In_bools in Hb. rewrite app_nth2 by lia. replace (kk - length b) with 0 by lia. reflexivity. Qed.

  Lemma scores_child f s : f < length vss ->
    map (fun c => score_but fs no_pots v f c (k f)) (choices fs f (k f) s) = child_scores t (v f) (k f) s.
  Proof.
    intros Hf. rewrite scores_rows by exact Hf. unfold child_scores.
    rewrite (filter_ext_in _ (fun b => out t b =? s)) by (intros b Hb; now rewrite (nth_row_last (k f)) by exact Hb).
    apply map_ext_in. intros b Hb. apply filter_In in Hb. destruct Hb as [Hb _].
    rewrite seq_S, filter_app. cbn [Nat.add filter]. rewrite Nat.eqb_refl. cbn [negb]. rewrite app_nil_r.
    replace (filter (fun u' => negb (u' =? k f)) (seq 0 (k f))) with (seq 0 (k f)).
    - unfold wsum. rewrite Rplus_0_l. apply rsum_ext. intros j Hj. apply in_seq in Hj. now rewrite (nth_row (k f)) by (auto; lia).
    - symmetry. apply filter_all_true. intros j Hj. apply in_seq in Hj. destruct (Nat.eqb_spec j (k f)); [lia|reflexivity].
  Qed.
  Lemma scores_parent f u s : f < length vss -> u < k f ->
    map (fun c => score_but fs no_pots v f c u) (choices fs f u s) = parent_scores t (v f) (k f) u s.
  Proof.
    intros Hf Hu. rewrite scores_rows by exact Hf. unfold parent_scores.
    rewrite (filter_ext_in _ (fun b => val b u =? s)) by (intros b Hb; now rewrite (nth_row (k f)) by assumption).
    apply map_ext_in. intros b Hb. apply filter_In in Hb. destruct Hb as [Hb _].
    rewrite seq_S, filter_app. cbn [Nat.add filter]. destruct (Nat.eqb_spec (k f) u); [lia|]. cbn [negb].
    rewrite map_app, rsum_app. cbn [map]. rewrite rsum_cons, rsum_nil, (nth_row_last (k f)) by exact Hb. unfold wsum.
    rewrite (rsum_ext (fun u' => v f u' (Z.to_nat (nth u' (b ++ [connective t b]) 0%Z))) (fun j => v f j (val b j))); [lra|].
    intros j Hj. apply filter_In in Hj. destruct Hj as [Hj _]. apply in_seq in Hj. now rewrite (nth_row (k f)) by (auto; lia).
  Qed.

  (** Every state of every variable is reached. *)
  Lemma logical_covered : covered fs.
  Proof.
    intros f u s Hf Hu Hs E. unfold fs in Hf, Hu, Hs. rewrite map_length in Hf.
    rewrite (states_logical z t vss Hok f u Hf Hu) in Hs.
    rewrite (arity_logical z t vss Hok f Hf) in Hu. fold (k f) in Hu. pose proof (k_pos t vss Hok f Hf) as Hk. fold (k f) in Hk.
    set (b := mkb t (k f) (fun _ => negb (s =? relevant_state t))).
    assert (Hb : In b (bools (k f))) by (apply mkb_In; exact Ht).
    assert (Hv : forall j, j < k f -> val b j = s).
    { intros j Hj. unfold b. rewrite val_mkb by assumption. destruct (Nat.eqb_spec s (relevant_state t)) as [->|Hne]; [reflexivity|].
      cbn [negb]. destruct (two_states t Ht s Hs) as [->|F]; [reflexivity|contradiction]. }
    assert (G : filter (fun b => Z.to_nat (nth u (b ++ [connective t b]) 0%Z) =? s) (bools (k f)) <> []).
    { intros F. assert (I : In b []); [|destruct I]. rewrite <- F. apply filter_In. split; [exact Hb|]. apply Nat.eqb_eq.
      destruct (Nat.lt_ge_cases u (k f)) as [Hl|Hl].
      - rewrite (nth_row (k f)) by assumption. now apply Hv.
      - replace u with (k f) by lia. rewrite (nth_row_last (k f)) by exact Hb.
        destruct (out_cases t Ht (k f) b Hb) as [[E1 [j [Hj E2]]]|[E1 E2]]; rewrite E1.
        + rewrite <- E2. now apply Hv.
        + rewrite <- (E2 0 Hk). now apply Hv. }
    apply G. pose proof (scores_rows f u s Hf) as R. rewrite E in R. cbn [map] in R. symmetry in R. now apply map_eq_nil in R.
  Qed.
End Bridge.

(** ** Soft maxima *)
Local Open Scope R_scope.
Lemma g_fun_ln T P : T <> 0 -> 1 < P -> g_fun T (T * ln P) = T * ln (P - 1).
Proof.
  intros HT HP. assert (L : 0 < ln P) by (rewrite <- ln_1; apply ln_increasing; lra).
  unfold g_fun. destruct (neqb (T * ln P) n0) eqn:E.
  - apply neqb_R in E. exfalso. apply Rmult_integral in E. destruct E; [contradiction|lra].
  - rewrite nopp_R. change (T * ln P + T * ln (1 - exp (- (T * ln P) / T)) = T * ln (P - 1)).
    replace (- (T * ln P) / T) with (- ln P) by (field; exact HT). rewrite exp_Ropp, exp_ln by lra.
    rewrite <- Rmult_plus_distr_l. f_equal. rewrite <- ln_mult; [f_equal; field; lra|lra|].
    assert (/ P < 1) by (rewrite <- Rinv_1; apply Rinv_lt_contravar; lra). lra.
Qed.
Lemma sigmoid_R (x : R) : sigmoid x = / (1 + exp (- x)).
Proof. unfold sigmoid. rewrite nopp_R. change (1 / (1 + exp (- x)) = / (1 + exp (- x))). unfold Rdiv. lra. Qed.
Lemma par_soft_ln T P c : T <> 0 -> 1 < P -> par_soft T (T * ln P) c = T * (ln P - ln (P - 1 + exp (- c / T))).
Proof.
  intros HT HP. unfold par_soft. rewrite g_fun_ln by assumption. rewrite !sigmoid_R.
  replace (T * ln (P - 1) / T) with (ln (P - 1)) by (field; exact HT).
  replace (- (T * ln (P - 1)) / T) with (- ln (P - 1)) by (field; exact HT).
  rewrite Ropp_involutive, exp_Ropp, exp_ln by lra.
  assert (He : 0 < exp (- c / T)) by apply exp_pos.
  replace (/ (1 + / (P - 1)) + / (1 + (P - 1)) * exp (- c / T)) with ((P - 1 + exp (- c / T)) * / P) by (field; lra).
  rewrite ln_mult, ln_Rinv; [lra|lra|lra|apply Rinv_0_lt_compat; lra].
Qed.

Section Combine.
  Context {A : Type} (z : A) (t : ftype) (vss : list (list variable)).
  Hypothesis Hok : logical_ok vss.
  Hypothesis Ht : t <> TEnum.
  Let fs := map (logical_sf z t) vss.
  Let ks := par_counts vss.
  Let k f := nth f ks 0%nat.
  Let rs := relevant_state t.
  Let o := (1 - rs)%nat.
  Context (vt : list R).
  Hypothesis Hvt : length vt = total_states fs.
  Let v := read_msgs fs vt.

  Lemma ks_nf : length ks = length vss. Proof. apply map_length. Qed.

  (** The code's messages, given the two values. *)
  Definition diff_form (m m' : msg) : Prop :=
    forall f u, (f < length vss)%nat -> (u <= k f)%nat -> m f u rs = 0 /\ m f u o = m' f u o - m' f u rs.
  Lemma upto_of_diff m m' : diff_form m m' -> msg_eq_upto fs m m'.
  Proof.
    intros H f u Hf Hu. unfold fs in Hf. rewrite map_length in Hf. exists (- m' f u rs). intros s Hs.
    unfold fs in Hu, Hs. rewrite (states_logical z t vss Hok f u Hf Hu) in Hs. rewrite (arity_logical z t vss Hok f Hf) in Hu.
    destruct (H f u Hf) as [E1 E2]; [fold ks in Hu; fold (k f) in Hu; lia|].
    destruct (two_states t Ht s Hs) as [->| ->]; fold rs; fold o; lra.
  Qed.
  Lemma eqb_o : (o =? o)%nat = true /\ (rs =? o)%nat = false.
  Proof. split; [apply Nat.eqb_refl|apply Nat.eqb_neq; unfold o, rs; destruct t; cbn; lia]. Qed.
  Lemma o_lt2 : (o < 2)%nat /\ (rs < 2)%nat. Proof. unfold o, rs. destruct t; cbn; lia. Qed.

  Lemma logical_max_diff :
    (forall f u, (f < length vss)%nat -> (u < k f)%nat -> neg_inf < v f u o - v f u rs) ->
    diff_form (read_msgs fs (pass_logical_fac_to_var_messages vt (lf_parents rs vss) (lf_children rs vss) (type_offset t) 0%R))
                   (fac_to_var_max fs no_pots v).
  Proof.
    intros HP.
    destruct (logical_max_code ks (pdiff z t vss vt) (cdiff z t vss vt)) as [PM [E HPM]].
    { intros f Hf. rewrite ks_nf in Hf. now apply (k_pos t vss Hok). }
    { intros f u Hf Hu. rewrite ks_nf in Hf. now apply HP. }
    rewrite ks_nf in *.
    intros f u Hf Hu. destruct eqb_o as [Eo Ers]. destruct o_lt2 as [Lo Lr].
    assert (E' : (if neqb 0%R 0%R then logical_max_product (map (pdiff z t vss vt) (positions ks)) (map (cdiff z t vss vt) (seq 0 (length vss))) (map lab (positions ks)) (length vss)
       else logical_sum_product 0%R (map (pdiff z t vss vt) (positions ks)) (map (cdiff z t vss vt) (seq 0 (length vss))) (map lab (positions ks)) (length vss)) =
       (map PM (positions ks), map (fun f => pos_sum (pdiff z t vss vt) f (seq 0 (k f)) + Rmin 0 (par_max (pdiff z t vss vt) f (seq 0 (k f)))) (seq 0 (length vss)))).
    { replace (neqb 0%R 0%R) with true by (symmetry; now apply neqb_R). exact E. }
    pose proof (pass_logical_code z t vss Hok Ht vt Hvt 0%R PM _ E') as PC.
    split; [rewrite PC by assumption; fold rs; fold o; now rewrite Ers|].
    rewrite PC by assumption. fold rs. fold o. rewrite Eo. clear PC E E'. fold (par_counts vss). fold ks. fold (k f).
    unfold fac_to_var_max.
    destruct (Nat.ltb_spec u (k f)) as [Hl|Hl].
    - rewrite !(scores_parent z t vss Hok v f u _ Hf Hl). fold ks. fold (k f).
      pose proof (parent_max_o t Ht (v f) (k f) u Hl) as Q1. pose proof (parent_max_rs t Ht (v f) (k f) u Hl) as Q2.
      fold rs in Q1, Q2. fold o in Q1, Q2. rewrite Q1, Q2. clear Q1 Q2.
      destruct (Nat.eqb_spec (k f) 1) as [E1|E1].
      + unfold cdiff. fold fs. fold v. fold rs. fold o. fold ks. fold (k f). rewrite E1 in *. assert (u = 0)%nat by lia. subst u. cbn [seq filter Nat.eqb negb].
        unfold psum, base. cbn [map]. rewrite rsum_nil. lra.
      + assert (2 <= k f)%nat by lia. rewrite HPM by assumption.
        assert (Hne : filter (fun j => negb (j =? u)%nat) (seq 0 (k f)) <> []).
        { intros F. assert (I : In (if (u =? 0)%nat then 1 else 0)%nat []); [|destruct I]. rewrite <- F. apply filter_In. split; [apply in_seq; destruct (u =? 0)%nat; lia|].
          destruct (Nat.eqb_spec u 0); apply negb_true_iff, Nat.eqb_neq; lia. }
        change (others ks f u) with (filter (fun j => negb (j =? u)%nat) (seq 0 (k f))).
        destruct (filter (fun j => negb (j =? u)%nat) (seq 0 (k f))) as [|x0 l0] eqn:EL; [contradiction|]. rewrite <- EL.
        change (pos_sum (pdiff z t vss vt) f) with (psum t (v f)). change (par_max (pdiff z t vss vt) f) with (pmax t (v f)).
        unfold cdiff. fold fs. fold v. fold rs. fold o. fold ks. fold (k f).
        set (S := psum t (v f) _). set (M := pmax t (v f) _). set (B := base t (v f) _).
        unfold Rmin, Rmax. repeat destruct (Rle_dec _ _); lra.
    - assert (u = k f) by lia. subst u. rewrite !(scores_child z t vss Hok v f _ Hf). fold ks. fold (k f).
      destruct (child_max t Ht (v f) (k f)) as [Q1 Q2]; [now apply (k_pos t vss Hok)|]. fold rs in Q1, Q2. fold o in Q1, Q2. rewrite Q1, Q2. clear Q1 Q2.
      change (pos_sum (pdiff z t vss vt) f) with (psum t (v f)). change (par_max (pdiff z t vss vt) f) with (pmax t (v f)). lra.
  Qed.

  Lemma ls_sum_ln T f l : T <> 0 ->
    ls_sum (pdiff z t vss vt) T f l = T * ln (rprod (map (fun j => 1 + exp ((v f j o - v f j rs) / T)) l)).
  Proof.
    intros HT. unfold ls_sum, lsm. rewrite rsum_scal. f_equal. symmetry. apply ln_rprod. intros x _. pose proof (exp_pos (pdiff z t vss vt (f, x) / T)). lra.
  Qed.
  Lemma both_ratio T f l :
    rprod (map (fun j => exp (v f j o / T) + exp (v f j rs / T)) l)
    = rprod (map (fun j => exp (v f j rs / T)) l) * rprod (map (fun j => 1 + exp ((v f j o - v f j rs) / T)) l).
  Proof.
    rewrite <- rprod_mult. apply rprod_ext. intros j _. rewrite Rmult_plus_distr_l, <- exp_plus, Rmult_1_r, Rplus_comm. f_equal. f_equal. unfold Rdiv. lra.
  Qed.

  Lemma logical_soft_diff T : T <> 0 ->
    diff_form (read_msgs fs (pass_logical_fac_to_var_messages vt (lf_parents rs vss) (lf_children rs vss) (type_offset t) T))
                   (fac_to_var_soft fs no_pots T v).
  Proof.
    intros HT.
    pose proof (logical_sum_code ks (pdiff z t vss vt) (cdiff z t vss vt) T HT) as E. rewrite ks_nf in E.
    epose proof (pass_logical_code z t vss Hok Ht vt Hvt T _ _) as PC.
    replace (neqb T 0%R) with false in PC by (symmetry; now apply neqb_R_false). specialize (PC E). clear E.
    intros f u Hf Hu. destruct eqb_o as [Eo Ers]. destruct o_lt2 as [Lo Lr].
    split; [rewrite PC by assumption; fold rs; fold o; now rewrite Ers|].
    rewrite PC by assumption. fold rs. fold o. rewrite Eo. clear PC. fold ks. fold (k f). cbn [fst snd].
    unfold fac_to_var_soft.
    assert (X : forall g (l : list nat), map (fun c => exp (g c / T)) l = map (fun x => exp (x / T)) (map g l)) by (intros; now rewrite map_map).
    rewrite !X. clear X. rewrite <- Rmult_minus_distr_l.
    pose proof (fun l => rprod_pos (fun j => exp (v f j rs / T)) l (fun x _ => exp_pos _)) as Rpos.
    destruct (Nat.ltb_spec u (k f)) as [Hl|Hl].
    - rewrite !(scores_parent z t vss Hok v f u _ Hf Hl). fold ks. fold (k f).
      destruct (parent_soft t Ht (v f) (k f) T u Hl) as [Q1 Q2]. fold rs in Q1, Q2. fold o in Q1, Q2. rewrite Q1, Q2. clear Q1 Q2. rewrite both_ratio.
      set (l := filter _ _). specialize (Rpos l). set (B := rprod (map (fun j => exp (v f j rs / T)) l)) in *.
      set (P := rprod (map (fun j => 1 + exp ((v f j o - v f j rs) / T)) l)).
      destruct (Nat.eqb_spec (k f) 1) as [E1|E1].
      + assert (El : l = []). { unfold l. rewrite E1 in *. assert (u = 0)%nat by lia. subst u. reflexivity. }
        unfold B, P. rewrite El. cbn [map]. rewrite rprod_nil. unfold cdiff. fold fs. fold v. fold rs. fold o. fold ks. fold (k f).
        replace (exp (v f (k f) o / T) * (1 * 1)) with (exp (v f (k f) o / T)) by lra.
        replace (exp (v f (k f) o / T) * (1 * 1 - 1) + exp (v f (k f) rs / T) * 1) with (exp (v f (k f) rs / T)) by lra.
        rewrite !ln_exp. field. exact HT.
      + assert (HP : 1 < P).
        { apply rprod_gt1; [|intros j _; pose proof (exp_pos ((v f j o - v f j rs) / T)); lra]. unfold l. intros F.
          assert (I : In (if (u =? 0)%nat then 1 else 0)%nat []); [|destruct I]. rewrite <- F. apply filter_In. split; [apply in_seq; destruct (u =? 0)%nat; lia|].
          destruct (Nat.eqb_spec u 0); apply negb_true_iff, Nat.eqb_neq; lia. }
        rewrite ls_sum_ln by exact HT. change (others ks f u) with l. fold P. rewrite par_soft_ln by assumption. f_equal.
        unfold cdiff. fold fs. fold v. fold rs. fold o. fold ks. fold (k f).
        set (eo := exp (v f (k f) o / T)). set (er := exp (v f (k f) rs / T)).
        assert (0 < eo) by apply exp_pos. assert (0 < er) by apply exp_pos.
        assert (Ec : exp (- (v f (k f) o - v f (k f) rs) / T) = er * / eo).
        { unfold er, eo. rewrite <- exp_Ropp, <- exp_plus. f_equal. field. exact HT. }
        rewrite Ec. assert (0 < er * / eo) by (apply Rmult_lt_0_compat; [lra|now apply Rinv_0_lt_compat]).
        assert (HB : 0 < eo * B) by (apply Rmult_lt_0_compat; lra).
        replace (eo * (B * P)) with ((eo * B) * P) by lra.
        replace (eo * (B * P - B) + er * B) with ((eo * B) * (P - 1 + er * / eo)) by (field; lra).
        rewrite !ln_mult by lra. lra.
    - assert (u = k f) by lia. subst u. rewrite !(scores_child z t vss Hok v f _ Hf). fold ks. fold (k f).
      destruct (child_soft t Ht (v f) (k f) T) as [Q1 Q2]. fold rs in Q1, Q2. fold o in Q1, Q2. rewrite Q1, Q2. clear Q1 Q2. rewrite both_ratio.
      specialize (Rpos (seq 0 (k f))). set (B := rprod (map (fun j => exp (v f j rs / T)) _)) in *.
      rewrite ls_sum_ln by exact HT. set (P := rprod _).
      assert (HP : 1 < P).
      { apply rprod_gt1; [|intros j _; pose proof (exp_pos ((v f j o - v f j rs) / T)); lra]. pose proof (k_pos t vss Hok f Hf). cbv beta in H. fold ks in H. destruct (k f) eqn:Ek; [unfold k in Ek; lia|discriminate]. }
      rewrite g_fun_ln by assumption. f_equal. replace (B * P - B) with (B * (P - 1)) by lra. rewrite ln_mult by lra. lra.
  Qed.
  Lemma logical_max_lemma :
    (forall f u, (f < length vss)%nat -> (u < k f)%nat -> neg_inf < v f u o - v f u rs) ->
    msg_eq_upto fs (read_msgs fs (pass_logical_fac_to_var_messages vt (lf_parents rs vss) (lf_children rs vss) (type_offset t) 0%R))
                   (fac_to_var_max fs no_pots v).
  Proof. intros HP. now apply upto_of_diff, logical_max_diff. Qed.
  Lemma logical_soft_lemma T : T <> 0 ->
    msg_eq_upto fs (read_msgs fs (pass_logical_fac_to_var_messages vt (lf_parents rs vss) (lf_children rs vss) (type_offset t) T))
                   (fac_to_var_soft fs no_pots T v).
  Proof. intros HT. now apply upto_of_diff, logical_soft_diff. Qed.
  (** The code leaves the message at the relevant state at 0. *)
  Lemma logical_grounded T : (T = 0 -> forall f u, (f < length vss)%nat -> (u < k f)%nat -> neg_inf < v f u o - v f u rs) ->
    forall f u, (f < length vss)%nat -> (u <= k f)%nat ->
    read_msgs fs (pass_logical_fac_to_var_messages vt (lf_parents rs vss) (lf_children rs vss) (type_offset t) T) f u rs = 0.
  Proof.
    intros HP f u Hf Hu. destruct (Req_EM_T T 0) as [->|HT]; [now apply logical_max_diff; [apply HP| |]|now apply (logical_soft_diff T HT)].
  Qed.
End Combine.
