(** * Rounded sum-product runs (C68). *)
From Verif Require Import NumPy Lists VGroup Factor FGroup FGraph BPState BP Rounded SpecVGroup SpecFGraph SpecFactor SpecWiring SpecState SpecBP SpecText SpecRounded SpecStable SpecConv SpecRoundErr SpecRoundSoft.
From Verif Require Import LemFGraph LemWiring LemGraph LemState LemNum LemNorm LemVtoF LemEnum LemLogCode LemLogical LemLogBP LemText LemRun LemIter LemPass LemSplit LemRounded LemStable LemConv LemRoundErr.
From Coq Require Import Reals Lra Lia.
Local Open Scope nat_scope.

(** ** Slopes of the exponential and the logarithm *)
Lemma exp_slope x y : (x <= 0)%R -> (y <= 0)%R -> (Rabs (exp x - exp y) <= Rabs (x - y))%R.
Proof.
  assert (H : forall a b, (a <= 0)%R -> (exp a - exp b <= Rabs (a - b))%R).
  { intros a b Ha. pose proof (exp_ineq1_le (b - a)) as E. pose proof (exp_pos a) as Pa.
    assert (Ea : (exp a <= 1)%R) by (rewrite <- exp_0; now apply exp_le).
    assert (Eb : (exp b = exp a * exp (b - a))%R) by (rewrite <- exp_plus; f_equal; ring).
    rewrite Eb. assert (S : (exp a * (1 + (b - a)) <= exp a * exp (b - a))%R) by (apply Rmult_le_compat_l; lra).
    apply Rle_trans with (exp a * (a - b))%R; [lra|]. apply Rle_trans with (exp a * Rabs (a - b))%R.
    - apply Rmult_le_compat_l; [lra|apply Rle_abs].
    - rewrite <- (Rmult_1_l (Rabs (a - b))) at 2. apply Rmult_le_compat_r; [apply Rabs_pos|exact Ea]. }
  intros Hx Hy. apply Rabs_le. pose proof (H x y Hx). pose proof (H y x Hy) as H2. rewrite Rabs_minus_sym in H2. lra.
Qed.
Lemma ln_below z : (0 < z)%R -> (ln z <= z - 1)%R.
Proof. intros Hz. rewrite <- (ln_exp (z - 1)). apply ln_le; [exact Hz|]. pose proof (exp_ineq1_le (z - 1)). lra. Qed.
Lemma ln_slope x y : (1 / 2 <= x)%R -> (1 / 2 <= y)%R -> (Rabs (ln x - ln y) <= 2 * Rabs (x - y))%R.
Proof.
  assert (H : forall a b, (1 / 2 <= a)%R -> (1 / 2 <= b)%R -> (ln a - ln b <= 2 * Rabs (a - b))%R).
  { intros a b Ha Hb. assert (Hi : (0 < / b <= 2)%R).
    { split; [apply Rinv_0_lt_compat; lra|]. replace 2%R with (/ (1 / 2))%R by lra. apply Rinv_le_contravar; lra. }
    assert (E : (ln a - ln b = ln (a * / b))%R) by (rewrite ln_mult, ln_Rinv by lra; ring).
    rewrite E. assert (P : (0 < a * / b)%R) by (apply Rmult_lt_0_compat; lra).
    pose proof (ln_below _ P) as L. apply (Rle_trans _ _ _ L). replace (a * / b - 1)%R with ((a - b) * / b)%R by (field; lra).
    apply Rle_trans with (Rabs (a - b) * / b)%R; [apply Rmult_le_compat_r; [lra|apply Rle_abs]|].
    rewrite (Rmult_comm 2). apply Rmult_le_compat_l; [apply Rabs_pos|lra]. }
  intros Hx Hy. apply Rabs_le. pose proof (H x y Hx Hy). pose proof (H y x Hy Hx) as H2. rewrite Rabs_minus_sym in H2. lra.
Qed.
Lemma rsum_near {X} (h k : X -> R) l b : (forall x, In x l -> (Rabs (h x - k x) <= b)%R) ->
  (Rabs (rsum (map h l) - rsum (map k l)) <= INR (length l) * b)%R.
Proof.
  intros H. induction l as [|x l IH]; [cbn; rewrite Rminus_0_r, Rabs_R0; lra|]. cbn [map length]. rewrite !rsum_cons, S_INR.
  pose proof (H x (or_introl eq_refl)) as H1. specialize (IH (fun y Hy => H y (or_intror Hy))).
  apply Rabs_between in H1. apply Rabs_between in IH. apply Rabs_le. lra.
Qed.

Section Soft.
  Context (rnd ex lg : R -> R) (e M T : R) (Nc : nat).
  Hypothesis Hrd : is_rounding rnd.
  Hypothesis Hw : rounds_within rnd e M.
  Hypothesis He : (0 <= e <= 1)%R.
  Hypothesis HT : (0 < T)%R.
  Hypothesis Hacc : accurate ex lg e Nc.
  Hypothesis Heta : (INR Nc * (3 + / T) * e <= 1 / 2)%R.
  Let N := RoundNum rnd ex lg.

  Section Enum.
    Context {A : Type} (fs : list (sfactor A)).
    Hypothesis Hcfg : configs_ok fs.
    Context (vt lp : list R).
    Hypothesis Hvt : length vt = total_states fs.
    Hypothesis Hlp : length lp = total_configs fs.
    Let v := read_msgs fs vt.
    Let pots := read_pots fs lp.
    Let nc := total_configs fs.
    Let sc := rscore rnd fs vt lp.
    Let mx f u s := rmax neg_inf (map (sc f) (choices fs f u s)).

    Lemma soft_code_N f u s : f < length fs -> u < arity fs f -> s < snd (var_at fs f u) ->
      read_msgs fs (@pass_enum_fac_to_var_messages R N vt (sf_rows fs) lp nc T) f u s
      = rnd (rnd (mx f u s - v f u s)
             + rnd (T * lg (radds rnd 0 (map (fun c => ex (rnd (rnd (sc f c - mx f u s) / T))) (choices fs f u s)))))%R.
    Proof.
      intros Hf Hu Hs. pose proof (slot_index_lt fs f u s Hf Hu Hs) as L. unfold pass_enum_fac_to_var_messages.
      destruct (rows_triples fs Hcfg) as [-> ->].
      replace (@neqb R N T (@n0 R N)) with false by (symmetry; exact (proj2 (neqb_R_false T 0%R) ltac:(lra))).
      change (@n0 R N) with 0%R. 
      pose proof (gather_summary_N rnd ex lg e He fs Hcfg vt lp Hvt Hlp) as Gs. fold N nc sc in Gs. rewrite Gs. clear Gs.
      set (maxes := scatter _ _ _ _).
      assert (Lm : length maxes = length vt) by (unfold maxes; now rewrite scatter_length, repeat_length).
      assert (Nm : forall f u s, f < length fs -> u < arity fs f -> s < snd (var_at fs f u) -> nth (slot_index fs f u s) maxes 0%R = mx f u s).
      { intros f' u' s' Hf' Hu' Hs'. pose proof (slot_index_lt fs f' u' s' Hf' Hu' Hs') as L'. unfold maxes.
        rewrite nth_scatter_map; [|intros; unfold t_est; lia|rewrite repeat_length; lia].
        rewrite nth_repeat_lt by lia. rewrite (t_est_filter fs Hcfg vt lp Hvt Hlp f' u' s') by assumption. rewrite map_map. cbn [fst snd].
        rewrite (fold_left_ext _ Rmax) by (intros; apply (nmax_N rnd ex lg)). now rewrite fold_left_Rmax. }
      unfold read_msgs at 1, vadd, vsub.
      assert (Lv : length (map2 (@nsub R N) maxes vt) = length vt) by (rewrite map2_length, Lm; lia).
      rewrite (nth_map2 _ _ _ _ _ 0%R 0%R) by (rewrite ?map_length, ?scatter_length, ?repeat_length; lia).
      rewrite (nth_map2 _ _ _ _ _ 0%R 0%R) by (rewrite ?Lm; lia).
      rewrite (nth_map _ _ _ _ 0%R) by (rewrite scatter_length, repeat_length; lia).
      rewrite Nm by assumption.
      assert (G : gather 0%R maxes (map (t_est fs) (triples fs)) = map (fun t => nth (Z.to_nat (t_est fs t)) maxes 0%R) (triples fs)).
      { unfold gather. rewrite map_map. apply map_ext_in. intros t Ht. apply gather1_in. rewrite Lm. now apply (t_est_lt fs Hcfg vt lp Hvt Hlp). }
      rewrite G, map2_map. rewrite nth_scatter_map; [|intros; unfold t_est; lia|rewrite repeat_length; lia].
      rewrite nth_repeat_lt by lia. rewrite (t_est_filter fs Hcfg vt lp Hvt Hlp f u s), map_map by assumption. cbn [fst snd].
      change (@nadd R N) with (fun x y => rnd (x + y)%R). change (@nsub R N) with (fun x y => rnd (x - y)%R).
      change (@nmul R N) with (fun x y => rnd (x * y)%R). change (@nln R N) with lg. cbv beta.
      change (nth (slot_index fs f u s) vt 0%R) with (v f u s). do 5 f_equal. unfold radds. f_equal.
      apply map_ext_in. intros c Hc. apply choice_iff in Hc. destruct Hc as [Hc Ec]. unfold t_est. cbn [fst snd].
      rewrite Nat2Z.id, Ec, Nm by assumption. reflexivity.
    Qed.

    Context (V P : R) (K : nat).
    Hypothesis HV : (0 <= V)%R.
    Hypothesis HvV : forall f u s, f < length fs -> u < arity fs f -> s < snd (var_at fs f u) -> (Rabs (v f u s) <= V)%R.
    Hypothesis HpP : forall f c, f < length fs -> c < length (sf_configs (factor_at fs f)) -> (Rabs (pots f c) <= P)%R.
    Hypothesis HP : (0 <= P)%R.
    Hypothesis HK : forall f, f < length fs -> arity fs f <= K.
    Hypothesis HN : forall f, f < length fs -> length (sf_configs (factor_at fs f)) <= Nc.
    Hypothesis Hcov : covered fs.
    Let Q := (INR K * (V + e) + P + e)%R.
    Hypothesis HM : (Q + V + 2 * e + T * (INR Nc + 2) <= M)%R.
    Hypothesis HM2 : (2 * Q <= M)%R.
    Hypothesis HM3 : ((2 * Q + e) / T <= M)%R.
    Hypothesis HM4 : (INR Nc + 2 <= M)%R.
    Hypothesis Hfl : (Q <= 100000)%R.

    Lemma rnd_neg x : (x <= 0)%R -> (rnd x <= 0)%R.
    Proof. intros H. rewrite <- (rnd_0 rnd Hrd). now apply (rnd_mono rnd Hrd). Qed.

    Lemma soft_enum_near f u s : f < length fs -> u < arity fs f -> s < snd (var_at fs f u) ->
      let y := read_msgs fs (@pass_enum_fac_to_var_messages R N vt (sf_rows fs) lp nc T) f u s in
      (Rabs (y - fac_to_var_soft fs pots T v f u s) <= (INR K + 4 + T + 2 * INR Nc * (1 + 3 * T)) * e)%R /\
      (Rabs y <= Q + V + T * (INR Nc + 2) + 3 * e)%R.
    Proof.
      intros Hf Hu Hs. cbv zeta. rewrite soft_code_N by assumption.
      set (ch := choices fs f u s). assert (Hne : ch <> []) by now apply Hcov.
      assert (Hch : forall c, In c ch -> c < length (sf_configs (factor_at fs f))) by (intros c Hc; now apply choice_iff in Hc).
      assert (Lch : length ch <= Nc) by (eapply Nat.le_trans; [apply choices_length|now apply HN]).
      pose proof (pos_INR K) as PK. pose proof (pos_INR Nc) as PN.
      assert (PQ : (0 <= Q)%R) by (unfold Q; assert (0 <= INR K * (V + e))%R by (apply Rmult_le_pos; lra); lra).
      assert (PT : (0 < / T)%R) by now apply Rinv_0_lt_compat.
      assert (PTN : (0 <= T * (INR Nc + 2))%R) by (apply Rmult_le_pos; lra).
      assert (Sc : forall c, In c ch -> (Rabs (sc f c - score fs pots v f c) <= (INR K + 1) * e)%R /\ (- Q <= sc f c <= Q)%R).
      { intros c Hc. destruct (rscore_near rnd e M Hw He fs Hcfg vt lp Hvt Hlp V P K HV HvV HpP HK ltac:(fold Q; lra) f c Hf (Hch c Hc)) as [R1 [R2 _]].
        split; [exact R1|]. apply Rabs_between in R2. exact R2. }
      assert (Nf : map (sc f) ch <> []) by (destruct ch; [contradiction|discriminate]).
      assert (Emx : mx f u s = rmaxs (map (sc f) ch)).
      { unfold mx. fold ch. rewrite rmax_rmaxs by exact Nf. apply Rmax_right. pose proof (rmaxs_In _ Nf) as I. apply in_map_iff in I.
        destruct I as [c [<- Hc]]. destruct (Sc c Hc) as [_ H]. unfold neg_inf. lra. }
      rewrite Emx. set (m := rmaxs (map (sc f) ch)).
      assert (Im : exists c, In c ch /\ sc f c = m) by (pose proof (rmaxs_In _ Nf) as I; apply in_map_iff in I; destruct I as [c [E1 E2]]; exists c; split; [exact E2|exact E1]).
      destruct Im as [c0 [Ic0 Ec0]].
      assert (Bm : (- Q <= m <= Q)%R) by (rewrite <- Ec0; now apply Sc).
      assert (Um : forall c, In c ch -> (sc f c - m <= 0)%R) by (intros c Hc; assert (sc f c <= m)%R by (apply rmaxs_ub; now apply in_map); lra).
      set (E1 := fun c => ex (rnd (rnd (sc f c - m) / T))). set (E0 := fun c => exp ((sc f c - m) / T)).
      assert (Ne : forall c, In c ch -> (Rabs (E1 c - E0 c) <= (2 + / T) * e)%R /\ (0 <= E0 c <= 1)%R).
      { intros c Hc. specialize (Um c Hc). destruct (Sc c Hc) as [_ Bc]. unfold E1, E0.
        destruct (rnd_near rnd e M Hw (sc f c - m) (2 * Q)%R) as [N1 N2]; [apply Rabs_le; lra|exact HM2|].
        pose proof (rnd_neg _ Um) as Ng. set (w := rnd (sc f c - m)) in *.
        assert (Ng2 : (w / T <= 0)%R) by (unfold Rdiv; assert (0 <= (- w) * / T)%R by (apply Rmult_le_pos; lra); lra).
        assert (Ng3 : ((sc f c - m) / T <= 0)%R) by (unfold Rdiv; assert (0 <= (- (sc f c - m)) * / T)%R by (apply Rmult_le_pos; lra); lra).
        destruct (rnd_near rnd e M Hw (w / T) ((2 * Q + e) / T)%R) as [N3 _]; [|exact HM3|].
        { unfold Rdiv. rewrite Rabs_mult, (Rabs_right (/ T)) by lra. apply Rmult_le_compat_r; lra. }
        pose proof (rnd_neg _ Ng2) as Ng4. set (z := rnd (w / T)) in *.
        assert (N5 : (Rabs (w / T - (sc f c - m) / T) <= / T * e)%R).
        { replace (w / T - (sc f c - m) / T)%R with (/ T * (w - (sc f c - m)))%R by (field; lra). rewrite Rabs_mult, (Rabs_right (/ T)) by lra. apply Rmult_le_compat_l; lra. }
        pose proof (proj1 Hacc z Ng4) as A1. pose proof (exp_slope z ((sc f c - m) / T) Ng4 Ng3) as A2.
        assert (A3 : (Rabs (z - (sc f c - m) / T) <= e + / T * e)%R) by (apply Rabs_between in N3; apply Rabs_between in N5; apply Rabs_le; lra).
        split.
        - assert (A4 : (Rabs (exp z - exp ((sc f c - m) / T)) <= e + / T * e)%R) by lra. apply Rabs_between in A1. apply Rabs_between in A4. apply Rabs_le. lra.
        - split; [left; apply exp_pos|]. rewrite <- exp_0. now apply exp_le. }
      set (S0 := rsum (map E0 ch)). set (S1 := radds rnd 0 (map E1 ch)).
      assert (BS0 : (1 <= S0 <= INR Nc)%R).
      { split.
        - assert (E00 : E0 c0 = 1%R) by (unfold E0; rewrite Ec0; replace ((m - m) / T)%R with 0%R by (field; lra); apply exp_0).
          rewrite <- E00. apply In_rsum_le; [now apply in_map|]. intros y Hy. apply in_map_iff in Hy. destruct Hy as [c [<- Hc]]. now apply Ne.
        - apply Rle_trans with (INR (length ch) * 1)%R; [|rewrite Rmult_1_r; now apply le_INR].
          rewrite <- rsum_const. apply rsum_le. intros c Hc. now apply Ne. }
      assert (PTe : (0 <= / T * e)%R) by (apply Rmult_le_pos; lra).
      assert (Eta : (0 <= INR Nc * ((3 + / T) * e) <= 1 / 2)%R) by (split; [apply Rmult_le_pos; [lra|apply Rmult_le_pos; lra]|lra]).
      set (eta := (INR Nc * ((3 + / T) * e))%R) in *.
      assert (DS : (Rabs (S1 - S0) <= eta)%R).
      { destruct (radds_near rnd e M Hw He (map E1 ch) 0%R Nc (1 + (2 + / T) * e)%R 0%R) as [R1 _].
        - now rewrite map_length.
        - rewrite Rabs_R0. lra.
        - assert (0 <= (2 + / T) * e)%R by (apply Rmult_le_pos; lra). lra.
        - intros x Hx. apply in_map_iff in Hx. destruct Hx as [c [<- Hc]]. destruct (Ne c Hc) as [H1 H2]. apply Rabs_between in H1. apply Rabs_le. lra.
        - replace (0 + INR Nc * (1 + (2 + / T) * e + e))%R with (INR Nc + eta)%R by (unfold eta; ring). lra.
        - fold S1 in R1. assert (R2 : (Rabs (rsum (map E1 ch) - S0) <= INR Nc * ((2 + / T) * e))%R).
          { apply Rle_trans with (INR (length ch) * ((2 + / T) * e))%R; [apply rsum_near; intros c Hc; now apply Ne|].
            apply Rmult_le_compat_r; [apply Rmult_le_pos; lra|now apply le_INR]. }
          apply Rabs_between in R1. apply Rabs_between in R2. replace eta with (INR Nc * e + INR Nc * ((2 + / T) * e))%R by (unfold eta; ring). apply Rabs_le. lra. }
      assert (DS' := DS). apply Rabs_between in DS'.
      pose proof (proj2 Hacc S1 ltac:(lra)) as A1. pose proof (ln_slope S1 S0 ltac:(lra) ltac:(lra)) as A2.
      assert (L0 : (0 <= ln S0 <= INR Nc)%R).
      { split; [rewrite <- ln_1; apply ln_le; lra|]. pose proof (ln_below S0 ltac:(lra)). lra. }
      assert (A3 : (Rabs (lg S1 - ln S0) <= e + 2 * eta)%R).
      { apply Rabs_between in A1. assert (A2' : (Rabs (ln S1 - ln S0) <= 2 * eta)%R) by lra. apply Rabs_between in A2'. apply Rabs_le. lra. }
      assert (A4 : (Rabs (T * lg S1 - T * ln S0) <= T * (e + 2 * eta))%R).
      { rewrite <- Rmult_minus_distr_l, Rabs_mult, (Rabs_right T) by lra. apply Rmult_le_compat_l; lra. }
      assert (A5 : (Rabs (T * lg S1) <= T * (INR Nc + 2))%R).
      { rewrite Rabs_mult, (Rabs_right T) by lra. apply Rmult_le_compat_l; [lra|]. apply Rabs_between in A3. apply Rabs_le. lra. }
      destruct (rnd_near rnd e M Hw _ _ A5 ltac:(lra)) as [N1 N2].
      pose proof (HvV f u s Hf Hu Hs) as Hv. apply Rabs_between in Hv.
      destruct (rnd_near rnd e M Hw (m - v f u s) (Q + V)%R) as [N3 N4]; [apply Rabs_le; lra|lra|].
      set (p1 := rnd (m - v f u s)) in *. set (p2 := rnd (T * lg S1)) in *.
      apply Rabs_between in N2. apply Rabs_between in N4.
      destruct (rnd_near rnd e M Hw (p1 + p2) (Q + V + 2 * e + T * (INR Nc + 2))%R) as [N5 N6]; [apply Rabs_le; lra|exact HM|].
      split; [|lra].
      assert (Ex : (m - v f u s + T * ln S0 = T * ln (rsum (map (fun c => exp ((sc f c - v f u s) / T)) ch)))%R).
      { rewrite (map_ext (fun c => exp ((sc f c - v f u s) / T)) (fun c => exp ((m - v f u s) / T) * E0 c)%R).
        2:{ intros c. unfold E0. rewrite <- exp_plus. f_equal. field. lra. }
        rewrite rsum_scal. fold S0. rewrite ln_mult, ln_exp by (try apply exp_pos; lra). field. lra. }
      assert (Fin : (- ((INR K + 1) * e) <= (m - v f u s + T * ln S0) - fac_to_var_soft fs pots T v f u s <= - ((INR K + 1) * e) + 2 * ((INR K + 1) * e))%R).
      { rewrite Ex. unfold fac_to_var_soft. fold ch. apply (soft_between T (fun c => sc f c - v f u s)%R (fun c => score_but fs pots v f c u) ch); [exact HT|exact Hne|].
        intros c Hc. destruct (Sc c Hc) as [R1 _]. apply Rabs_between in R1.
        pose proof (score_split fs vt lp Hvt Hlp f c u v Hf Hu) as Sp. fold pots in Sp.
        unfold ch in Hc. apply choice_iff in Hc. destruct Hc as [_ Ec]. rewrite Ec in Sp. lra. }
      apply Rabs_between in N5. apply Rabs_between in N3. apply Rabs_between in N1. apply Rabs_between in A4.
      replace ((INR K + 4 + T + 2 * INR Nc * (1 + 3 * T)) * e)%R with ((INR K + 1) * e + 3 * e + T * (e + 2 * eta))%R by (unfold eta; field; lra).
      apply Rabs_le. lra.
    Qed.
  End Enum.

  (** ** Graphs of enumeration factors *)
  Section Graph.
    Context (G : per_type (list (fgroup R))).
    Hypothesis Hwf : wf_groups G.
    Let fs := graph_factors 0%R G.
    Let fsE := enum_factors G.
    Hypothesis Hall : length fs = length fsE.
    Context (junk : nat -> Z) (g : fgraph R) (st : fg_state R).
    Hypothesis HG : gr_groups g = G.
    Hypothesis Hst : compile_fg_state junk g = Ok st.
    Context (lp vt : list R).
    Hypothesis Hvt : length vt = total_states fs.
    Hypothesis Hlp : total_configs fsE <= length lp.
    Let v := read_msgs fs vt.
    Let pots := graph_pots G lp.

    Lemma only_enum : map (logical_sf 0%R TOr) (logical_factors TOr G) = [] /\ map (logical_sf 0%R TAnd) (logical_factors TAnd G) = [] /\ fs = fsE.
    Proof.
      assert (Efs : fs = fsE ++ map (logical_sf 0%R TOr) (logical_factors TOr G) ++ map (logical_sf 0%R TAnd) (logical_factors TAnd G)) by (unfold fs; apply graph_fs).
      assert (H := Hall). rewrite Efs, !app_length in H. destruct (map _ (logical_factors TOr G)); [|cbn in H; lia]. destruct (map _ (logical_factors TAnd G)); [|cbn in H; lia].
      split; [reflexivity|]. split; [reflexivity|]. rewrite Efs. cbn. now rewrite app_nil_r.
    Qed.
    Lemma pass_only : @pass_fac_to_var_messages R N st T lp vt
      = @pass_enum_fac_to_var_messages R N vt (sf_rows fsE) (slice lp 0 (total_configs fsE)) (total_configs fsE) T.
    Proof.
      destruct only_enum as [EO [EA Ef]]. assert (Hvt' := Hvt). rewrite Ef in Hvt'.
      pose proof (pass_split_N N G Hwf junk g st HG Hst T lp vt [] [] Hvt' ltac:(rewrite EO; reflexivity) ltac:(rewrite EA; reflexivity)) as E.
      rewrite app_nil_r in E. rewrite E. fold fsE.
      set (x := @pass_logical_fac_to_var_messages R N [] _ _ 1 T). set (y := @pass_logical_fac_to_var_messages R N [] _ _ _ T).
      assert (Hx : x = []) by (apply length_zero_iff_nil; unfold x; rewrite pass_logical_length_N; reflexivity).
      assert (Hy : y = []) by (apply length_zero_iff_nil; unfold y; rewrite pass_logical_length_N; reflexivity).
      rewrite Hx, Hy. now rewrite !app_nil_r.
    Qed.

    Context (V P : R) (D K : nat).
    Hypothesis HV : (0 <= V)%R.
    Hypothesis HvV : forall f u s, f < length fs -> u < arity fs f -> s < snd (var_at fs f u) -> (Rabs (v f u s) <= V)%R.
    Hypothesis HP : (0 <= P)%R.
    Hypothesis HpP : forall f c, f < length fsE -> c < length (sf_configs (factor_at fs f)) -> (Rabs (pots f c) <= P)%R.
    Hypothesis Hdeg : degrees fs D K.
    Hypothesis HN : forall f, f < length fs -> length (sf_configs (factor_at fs f)) <= Nc.
    Hypothesis Hcov : covered fs.
    Let W := (P + (INR K + 2) * (2 * V + 3 * e) + T * (INR Nc + 2))%R.
    Hypothesis HM : (W <= M)%R.
    Hypothesis HM2 : (2 * W <= M)%R.
    Hypothesis HM3 : (2 * W / T <= M)%R.
    Hypothesis Hfl : (W <= 100000)%R.

    Lemma soft_pass_near : let new := read_msgs fs (@pass_fac_to_var_messages R N st T lp vt) in
      (forall f u s, f < length fs -> u < arity fs f -> s < snd (var_at fs f u) ->
        (Rabs (new f u s - fac_to_var fs pots T v f u s) <= (INR K + 4 + T + 2 * INR Nc * (1 + 3 * T)) * e)%R /\ (Rabs (new f u s) <= W)%R).
    Proof.
      cbv zeta. rewrite pass_only. destruct only_enum as [_ [_ Ef]].
      assert (Ct : configs_ok fsE) by now apply enum_configs_ok.
      set (lpE := slice lp 0 (total_configs fsE)).
      assert (LlpE : length lpE = total_configs fsE) by (unfold lpE; rewrite slice_length; lia).
      assert (PE : forall f c, f < length fsE -> c < length (sf_configs (factor_at fsE f)) -> read_pots fsE lpE f c = pots f c).
      { intros f' c Hf' Hc. unfold pots, graph_pots. fold fsE. destruct (Nat.ltb_spec f' (length fsE)); [|lia]. unfold read_pots, lpE.
        rewrite nth_slice; [reflexivity|]. pose proof (first_config_lt fsE f' c Hf' Hc). unfold total_configs. lia. }
      unfold v in *. rewrite Ef in *. intros f u s Hf Hu Hs.
      pose proof (pos_INR K) as PK. pose proof (pos_INR Nc) as PN. assert (KV : (0 <= INR K * V)%R) by (apply Rmult_le_pos; lra). assert (Ke : (0 <= INR K * e)%R) by (apply Rmult_le_pos; lra).
      assert (PT : (0 < / T)%R) by now apply Rinv_0_lt_compat.
      assert (PTN : (0 <= T * (INR Nc + 2))%R) by (apply Rmult_le_pos; lra).
      assert (HQ : (2 * (INR K * (V + e) + P + e) + e <= 2 * W)%R) by (unfold W; lra).
      assert (HNM : (INR Nc + 2 <= M)%R).
      { eapply Rle_trans; [|exact HM3]. unfold Rdiv. replace (INR Nc + 2)%R with (T * (INR Nc + 2) * / T)%R by (field; lra). apply Rmult_le_compat_r; [lra|]. unfold W. lra. }
      destruct (soft_enum_near fsE Ct vt lpE Hvt LlpE V P K HV HvV) with (f := f) (u := u) (s := s) as [S1 S2]; auto.
      - intros f' c Hf' Hc. rewrite PE by assumption. now apply HpP.
      - apply Hdeg.
      - unfold W in HM. lra.
      - lra.
      - eapply Rle_trans; [|exact HM3]. unfold Rdiv. apply Rmult_le_compat_r; lra.
      - unfold W in Hfl. lra.
      - split; [|unfold W; lra].
        assert (Es : fac_to_var fsE pots T (read_msgs fsE vt) f u s = fac_to_var_soft fsE (read_pots fsE lpE) T (read_msgs fsE vt) f u s).
        { rewrite <- (fac_to_var_pots fsE (read_pots fsE lpE) pots) by (intros c Hc; now apply PE).
          unfold fac_to_var. destruct (Req_EM_T T 0); [lra|reflexivity]. }
        rewrite Es. exact S1.
    Qed.
  End Graph.

  Lemma soft_drift_nonneg D K Nn d n : (0 <= d <= 1)%R -> (0 <= soft_drift D K Nn T d n)%R.
  Proof.
    intros Hd. induction n as [|n IH]; [cbn; lra|]. cbn [soft_drift]. cbv zeta. unfold soft_error.
    pose proof (pos_INR K). pose proof (pos_INR (K - 1)). pose proof (pos_INR D). pose proof (pos_INR (D - 1)). pose proof (pos_INR Nn).
    set (x := soft_drift D K Nn T d n) in *.
    assert (0 <= d * x)%R by (apply Rmult_le_pos; lra).
    assert (0 <= INR (K - 1) * INR (D - 1) * x)%R by (apply Rmult_le_pos; [apply Rmult_le_pos; lra|lra]).
    assert (0 <= INR Nn * (1 + 3 * T))%R by (apply Rmult_le_pos; lra).
    assert (0 <= INR (K - 1) * (2 * INR D + 2))%R by (apply Rmult_le_pos; lra).
    match goal with |- (0 <= _ + (1 - d) * ?y + 8)%R => assert (0 <= (1 - d) * y)%R by (apply Rmult_le_pos; lra) end. lra.
  Qed.

  (** ** Iterations *)
  Section Run.
    Context (vgs : list vgroup) (g : fgraph R) (c : bp_ctx R).
    Hypothesis Hok : groups_ok vgs.
    Hypothesis Hr : reachable vgs g.
    Hypothesis Hwf : wf_groups (gr_groups g).
    Hypothesis Hbp : bp_of g T c.
    Let fs := graph_factors 0%R (gr_groups g).
    Let ne := length (enum_factors (gr_groups g)).
    Let starts0 := gr_vars_to_starts g.
    Let lens := map snd (sf_edges fs).
    Context (a : bp_arrays R).
    Hypothesis Ha : arrays_of c a.
    Let pots := graph_pots (gr_groups g) (ba_log_potentials a).
    Let evs := read_ev starts0 (ba_evidence a).
    Let m0 := read_msgs fs (ba_ftov_msgs a).
    Context (D K : nat) (B P L : R).
    Hypothesis Hss : soft_sized fs ne pots evs m0 D K Nc T B P L e.
    Hypothesis HM : (4 * L + 2 * L / T <= M)%R.
    Hypothesis Hsup : supported lens.
    Context (d : R).
    Hypothesis Hd : (0 <= d <= 1)%R.
    Let q := rnd (1 - d)%R.
    Let d' := (1 - q)%R.
    Let V := (B + (INR D + 1) * (1000 + e))%R.
    Let rr n := read_msgs fs (ba_ftov_msgs (run_rounded rnd ex lg c a n d)).
    Let tt n := text_bp fs pots T d' evs m0 n.

    Lemma Hsz : sized fs ne pots evs m0 D K B P L e.
    Proof. apply Hss. Qed.
    Lemma M_facts : (4 * L <= M)%R /\ (2 * L / T <= M)%R.
    Proof.
      destruct (size_facts e He g a D K B P L Hsz) as [_ [_ [_ [_ [_ [_ [_ [S2 _]]]]]]]].
      assert (0 <= 2 * L / T)%R by (unfold Rdiv; apply Rmult_le_pos; [lra|left; now apply Rinv_0_lt_compat]). lra.
    Qed.
    Lemma rr_length n : length (ba_ftov_msgs (run_rounded rnd ex lg c a n d)) = total_states fs /\ length (before_normalising rnd ex lg c a d n) = total_states fs.
    Proof. destruct (rounded_sizes rnd ex lg g T c Hwf Hbp a Ha d n) as [L1 [L2 _]]. split; symmetry; assumption. Qed.
    Lemma rr_interval n f u s : f < length fs -> u < arity fs f -> s < snd (var_at fs f u) -> (-1000 <= rr n f u s <= 0)%R.
    Proof. intros Hf Hu Hs. now apply (C47_interval_lemma rnd ex lg Hrd g T c Hwf Hbp a Ha d n Hsup). Qed.
    Lemma rr_normalize n : ba_ftov_msgs (run_rounded rnd ex lg c a n d) = @normalize_and_clip_msgs R N (before_normalising rnd ex lg c a d n) lens (nat_max lens).
    Proof. destruct (rounded_sizes rnd ex lg g T c Hwf Hbp a Ha d n) as [_ [_ [E1 [E2 _]]]]. rewrite run_rounded_before, E1, E2. reflexivity. Qed.

    Lemma new_near n : let new := read_msgs fs (new_rounded rnd ex lg c a (ba_ftov_msgs (run_rounded rnd ex lg c a n d))) in
      msgs_spread fs new (fac_to_var fs pots T (var_to_fac fs evs (rr n))) (soft_error D K Nc T * e)%R /\
      forall f u s, f < length fs -> u < arity fs f -> s < snd (var_at fs f u) -> (Rabs (new f u s) <= L)%R.
    Proof.
      cbv zeta. destruct (size_facts e He g a D K B P L Hsz) as [PD [PK [De [Ke [HV [KV [S1 [S2 [HP [HB S3]]]]]]]]]]. fold V in HV, KV, S1.
      destruct M_facts as [HM1 HM2].
      destruct Hss as [[Hdeg [Hcov [_ [_ [HevB [HpP _]]]]]] [Hall [HN [S4 _]]]]. fold V in S4.
      destruct (arrays_lengths vgs g T c Hok Hr Hwf Hbp a Ha) as [L1 [_ L3]].
      destruct (ctx_fields vgs g T c Hok Hr Hwf Hbp) as [F1 [F2 [F3 [F4 _]]]]. destruct (ctx_state g T c Hbp) as [junk Hst].
      unfold new_rounded. fold N. cbv zeta. rewrite F1.
      destruct (rr_length n) as [Ll _]. set (old := ba_ftov_msgs (run_rounded rnd ex lg c a n d)) in *.
      set (vt := @pass_var_to_fac_messages R N old (ba_evidence a) (bc_var_states_for_edges c)).
      assert (Lvs : length (bc_var_states_for_edges c) = total_states fs) by (rewrite F4, edge_var_states_length; reflexivity).
      assert (Lvt : length vt = total_states fs) by (unfold vt, pass_var_to_fac_messages, vsub; rewrite map2_length, gather_length, Lvs, Ll; lia).
      pose proof (graph_layout vgs g T c Hok Hr Hwf Hbp) as Hlay. fold fs starts0 in Hlay.
      assert (Hv : forall f u s, f < length fs -> u < arity fs f -> s < snd (var_at fs f u) ->
        (Rabs (read_msgs fs vt f u s - var_to_fac fs evs (rr n) f u s) <= (INR D + 1) * e)%R /\ (Rabs (read_msgs fs vt f u s) <= V)%R).
      { intros f u s Hf Hu Hs. unfold vt. rewrite F4.
        apply (vtof_near rnd ex lg e M Hw He fs starts0 (gr_num_var_states g) old (ba_evidence a) Hlay Ll ltac:(lia) B D HevB (proj1 Hdeg) (rr_interval n) ltac:(lra)); assumption. }
      pose proof (soft_pass_near (gr_groups g) Hwf Hall junk g _ eq_refl Hst (ba_log_potentials a) vt Lvt L1 V P D K HV ltac:(intros; now apply Hv) HP HpP Hdeg HN Hcov) as Q1.
      cbv zeta in Q1. specialize (Q1 ltac:(lra) ltac:(lra)).
      assert (HM3 : (2 * (P + (INR K + 2) * (2 * V + 3 * e) + T * (INR Nc + 2)) / T <= M)%R).
      { eapply Rle_trans; [|exact HM2]. unfold Rdiv. apply Rmult_le_compat_r; [left; now apply Rinv_0_lt_compat|lra]. }
      specialize (Q1 HM3 ltac:(lra)). fold fs pots in Q1.
      split; [|intros f u s Hf Hu Hs; eapply Rle_trans; [now apply Q1|exact S4]].
      intros f u Hf Hu. pose proof (pos_INR (K - 1)) as PK1.
      replace (soft_error D K Nc T * e)%R with (2 * ((INR K + 4 + T + 2 * INR Nc * (1 + 3 * T)) * e) + (0 + INR (K - 1) * (2 * ((INR D + 1) * e))))%R by (unfold soft_error; ring).
      eapply spread_trans; [apply spread_near; intros s Hs; now apply Q1|].
      apply (fac_to_var_spread fs D K); auto; try lra.
      - now apply graph_configs_ok.
      - intros f' Hf'. apply spread_zero.
      - intros f' u' Hf' Hu'. apply spread_near. intros s' Hs'. now apply Hv.
    Qed.

    Lemma before_near n :
      let b := read_msgs fs (before_normalising rnd ex lg c a d (S n)) in
      msgs_near fs b (damp d' (rr n) (read_msgs fs (new_rounded rnd ex lg c a (ba_ftov_msgs (run_rounded rnd ex lg c a n d))))) (3 * e)%R /\
      forall f u s, f < length fs -> u < arity fs f -> s < snd (var_at fs f u) -> (Rabs (b f u s) <= L + 2000 + 3 * e)%R.
    Proof.
      cbv zeta. destruct (new_near n) as [_ Hn]. destruct (rr_length n) as [Ll _]. pose proof (q_bounds rnd Hrd g d Hd) as Hq; fold q in Hq.
      destruct M_facts as [HM1 HM2]; destruct (size_facts e He g a D K B P L Hsz) as [_ [_ [_ [_ [_ [_ [_ [S2 _]]]]]]]].
      destruct (ctx_fields vgs g T c Hok Hr Hwf Hbp) as [_ [_ [_ [F4 _]]]].
      set (old := ba_ftov_msgs (run_rounded rnd ex lg c a n d)) in *.
      assert (Ln : length (new_rounded rnd ex lg c a old) = length old).
      { apply new_rounded_length. rewrite F4, edge_var_states_length. symmetry. exact Ll. }
      assert (E : forall f u s, f < length fs -> u < arity fs f -> s < snd (var_at fs f u) ->
        let x := rr n f u s in let y := read_msgs fs (new_rounded rnd ex lg c a old) f u s in
        read_msgs fs (before_normalising rnd ex lg c a d (S n)) f u s = rnd (x + rnd (q * rnd (y - x)))%R).
      { intros f u s Hf Hu Hs. cbv zeta. unfold read_msgs at 1. cbn [before_normalising]. fold old.
        assert (Hi := slot_index_lt fs f u s Hf Hu Hs). unfold total_states in Ll.
        rewrite (nth_map2 _ _ _ _ 0%R 0%R 0%R) by (rewrite ?Ln; unfold total_states in *; lia). reflexivity. }
      assert (Main : forall f u s, f < length fs -> u < arity fs f -> s < snd (var_at fs f u) ->
        let x := rr n f u s in let y := read_msgs fs (new_rounded rnd ex lg c a old) f u s in
        (Rabs (rnd (x + rnd (q * rnd (y - x))) - (d' * x + (1 - d') * y)) <= 3 * e)%R /\ (Rabs (rnd (x + rnd (q * rnd (y - x)))) <= L + 2000 + 3 * e)%R).
      { intros f u s Hf Hu Hs. cbv zeta. pose proof (Hn f u s Hf Hu Hs) as By. pose proof (rr_interval n f u s Hf Hu Hs) as Bx.
        set (x := rr n f u s) in *. set (y := read_msgs fs (new_rounded rnd ex lg c a old) f u s) in *. apply Rabs_between in By.
        destruct (rnd_near rnd e M Hw (y - x) (L + 1000)%R) as [N1 N2]; [apply Rabs_le; lra|lra|]. set (w := rnd (y - x)) in *.
        destruct (rnd_near rnd e M Hw (q * w) (L + 1000 + e)%R) as [N3 N4].
        { rewrite Rabs_mult. rewrite (Rabs_right q) by lra. eapply Rle_trans; [|exact N2]. rewrite <- (Rmult_1_l (Rabs w)) at 2. apply Rmult_le_compat_r; [apply Rabs_pos|lra]. }
        { lra. }
        set (w2 := rnd (q * w)) in *. apply Rabs_between in N4.
        destruct (rnd_near rnd e M Hw (x + w2) (L + 2000 + 2 * e)%R) as [N5 N6]; [apply Rabs_le; lra|lra|]. apply Rabs_between in N5. apply Rabs_between in N3. apply Rabs_between in N1.
        split; [|eapply Rle_trans; [exact N6|lra]].
        assert (Q1 : (- e <= q * (w - (y - x)) <= e)%R).
        { assert (- e <= - (q * e) /\ q * e <= e)%R by (assert (q * e <= 1 * e)%R by (apply Rmult_le_compat_r; lra); lra).
          assert (q * - e <= q * (w - (y - x)) <= q * e)%R by (split; apply Rmult_le_compat_l; lra). lra. }
        unfold d'. replace ((1 - q) * x + (1 - (1 - q)) * y)%R with (x + q * w - q * (w - (y - x)))%R by ring. apply Rabs_le. lra. }
      split; intros f u s Hf Hu Hs; rewrite E by assumption; now apply Main.
    Qed.

    Lemma initial_near : msgs_near fs (rr 0) (normal fs m0) e.
    Proof.
      destruct M_facts as [HM1 HM2]; destruct (size_facts e He g a D K B P L Hsz) as [_ [_ [_ [_ [_ [_ [_ [S2 _]]]]]]]]. destruct Hsz as [_ [_ [_ [_ [_ [_ [Hm _]]]]]]].
      destruct (rr_length 0) as [_ Lb]. unfold rr. rewrite rr_normalize.
      apply (normalize_near rnd ex lg e M Hw g Hsup _ L Lb); [|lra|exact Hm].
      apply (above_floor_slots g Hsup _ Lb). intros f u Hf Hu. exists 0. pose proof (positive_fs g Hsup f u Hf Hu) as Hp. split; [exact Hp|].
      pose proof (Hm f u 0 Hf Hu Hp) as H. apply Rabs_between in H. unfold neg_inf. change (-100000 <= m0 f u 0%nat)%R. lra.
    Qed.
    Lemma above_before n : above_floor lens (before_normalising rnd ex lg c a d n).
    Proof.
      destruct M_facts as [HM1 HM2]; destruct (size_facts e He g a D K B P L Hsz) as [_ [_ [_ [_ [_ [_ [_ [S2 _]]]]]]]]. destruct (rr_length n) as [_ Lb].
      apply (above_floor_slots g Hsup _ Lb). intros f u Hf Hu. exists 0. pose proof (positive_fs g Hsup f u Hf Hu) as Hp. split; [exact Hp|].
      destruct n as [|n].
      - destruct Hsz as [_ [_ [_ [_ [_ [_ [Hm _]]]]]]]. pose proof (Hm f u 0 Hf Hu Hp) as H. apply Rabs_between in H. unfold neg_inf. change (-100000 <= m0 f u 0%nat)%R. lra.
      - destruct (before_near n) as [_ H]. cbv zeta in H. specialize (H f u 0 Hf Hu Hp). apply Rabs_between in H. unfold neg_inf. fold fs. lra.
    Qed.

    Lemma run_near n : msgs_spread fs (rr n) (tt n) (soft_drift D K Nc T d' n * e)%R /\ msgs_near fs (rr n) (tt n) (soft_drift D K Nc T d' n * e)%R.
    Proof.
      pose proof (q_bounds rnd Hrd g d Hd) as Hq; fold q in Hq. assert (Hd' : (0 <= d' <= 1)%R) by (unfold d'; lra).
      destruct Hsz as [Hdeg [Hcov _]]. destruct M_facts as [HM1 HM2]; destruct (size_facts e He g a D K B P L Hsz) as [PD [PK [De [Ke [HV [KV [S1 [S2 [HP [HB S3]]]]]]]]]].
      induction n as [|n [IH _]].
      - cbn [soft_drift]. pose proof initial_near as H0. split.
        + intros f u Hf Hu. apply spread_near. intros s Hs. now apply H0.
        + intros f u s Hf Hu Hs. eapply Rle_trans; [now apply H0|]. lra.
      - destruct (new_near n) as [N1 N2]. destruct (before_near n) as [B1 B2]. cbv zeta in N1, N2, B1, B2.
        destruct (rr_length (S n)) as [_ Lb].
        pose proof (normalize_near rnd ex lg e M Hw g Hsup (before_normalising rnd ex lg c a d (S n)) (L + 2000 + 3 * e)%R Lb (above_before (S n)) ltac:(lra) B2) as Z.
        fold fs lens N in Z. rewrite <- rr_normalize in Z. fold (rr (S n)) in Z.
        set (x := soft_drift D K Nc T d' n) in *. pose proof (soft_drift_nonneg D K Nc d' n Hd') as Hx. fold x in Hx.
        assert (Hxe : (0 <= x * e)%R) by (apply Rmult_le_pos; lra).
        assert (S4 : msgs_spread fs (read_msgs fs (before_normalising rnd ex lg c a d (S n))) (damp d' (tt n) (fac_to_var fs pots T (var_to_fac fs evs (tt n))))
          (2 * (3 * e) + (d' * (x * e) + (1 - d') * (soft_error D K Nc T * e + (0 + INR (K - 1) * (0 + INR (D - 1) * (x * e))))))%R).
        { intros f u Hf Hu. eapply spread_trans; [apply spread_near; intros s Hs; now apply B1|].
          apply (damp_spread fs); auto. intros f' u' Hf' Hu'. eapply spread_trans; [now apply N1|].
          pose proof (pos_INR (D - 1)).
          apply (fac_to_var_spread fs D K); auto; try lra.
          - now apply graph_configs_ok.
          - rewrite Rplus_0_l. apply Rmult_le_pos; lra.
          - intros f'' Hf''. apply spread_zero.
          - apply (var_to_fac_spread fs D K); auto. intros y _. apply spread_zero. }
        destruct (normal_spread fs _ _ _ (positive_fs g Hsup) S4) as [Z1 Z2].
        change (normal fs (damp d' (tt n) (fac_to_var fs pots T (var_to_fac fs evs (tt n))))) with (tt (S n)) in Z1, Z2.
        set (w := (2 * (3 * e) + _)%R) in Z1, Z2.
        assert (Ew : (soft_drift D K Nc T d' (S n) * e = 2 * e + w)%R) by (cbn [soft_drift]; cbv zeta; unfold w, x; ring).
        rewrite Ew. split.
        + intros f u Hf Hu. eapply spread_trans; [apply spread_near; intros s Hs; now apply Z|]. now apply Z1.
        + intros f u s Hf Hu Hs. specialize (Z f u s Hf Hu Hs). specialize (Z2 f u s Hf Hu Hs). apply Rabs_between in Z. apply Rabs_between in Z2. apply Rabs_le. lra.
    Qed.
    (** With contracting updates. *)
    Context (w : R).
    Hypothesis Hac : all_configs fs.
    Hypothesis Hw0 : (0 <= w)%R.
    Hypothesis Hpw : pots_within fs pots w.
    Hypothesis Hgain : (gain D K w T < 1)%R.
    Hypothesis Hd1 : (0 < q)%R.
    Let X := lasting_drift D K Nc T d' w.
    Lemma lasting_step : (0 <= X)%R /\ (2 <= X)%R /\ (rate D K d' w T * X + ((1 - d') * soft_error D K Nc T + 8) <= X)%R.
    Proof.
      pose proof (q_bounds rnd Hrd g d Hd) as Hq. fold q in Hq. assert (Hd' : (0 <= d' < 1)%R) by (unfold d'; lra).
      destruct (rate_bounds D K d' w T HT Hw0 Hd' Hgain) as [R1 R2]. set (rho := rate D K d' w T) in *.
      assert (C0 : (0 <= (1 - d') * soft_error D K Nc T + 8)%R).
      { unfold soft_error. pose proof (pos_INR K). pose proof (pos_INR (K - 1)). pose proof (pos_INR D). pose proof (pos_INR Nc).
        assert (0 <= INR Nc * (1 + 3 * T))%R by (apply Rmult_le_pos; lra). assert (0 <= INR (K - 1) * (2 * INR D + 2))%R by (apply Rmult_le_pos; lra).
        match goal with |- (0 <= (1 - d') * ?y + 8)%R => assert (0 <= (1 - d') * y)%R by (apply Rmult_le_pos; lra) end. lra. }
      unfold X, lasting_drift. fold rho. set (C := ((1 - d') * soft_error D K Nc T + 8)%R) in *.
      assert (I : (0 <= C / (1 - rho))%R) by (unfold Rdiv; apply Rmult_le_pos; [exact C0|left; apply Rinv_0_lt_compat; lra]).
      split; [lra|]. split; [lra|]. replace C with ((1 - rho) * (C / (1 - rho)))%R at 2 by (field; lra). lra.
    Qed.
    Lemma run_near_mix n : msgs_spread fs (rr n) (tt n) (X * e)%R /\ msgs_near fs (rr n) (tt n) (X * e)%R.
    Proof.
      destruct lasting_step as [X0 [X2 Xs]].
      pose proof (q_bounds rnd Hrd g d Hd) as Hq; fold q in Hq. assert (Hd' : (0 <= d' <= 1)%R) by (unfold d'; lra).
      destruct Hsz as [Hdeg [Hcov _]]. destruct M_facts as [HM1 HM2]; destruct (size_facts e He g a D K B P L Hsz) as [PD [PK [De [Ke [HV [KV [S1 [S2 [HP [HB S3]]]]]]]]]].
      induction n as [|n [IH _]].
      - pose proof initial_near as H0. assert (E2 : (2 * e <= X * e)%R) by (apply Rmult_le_compat_r; lra). split.
        + intros f u Hf Hu. apply (spread_mono _ _ _ (2 * e)%R); [exact E2|]. apply spread_near. intros s Hs. now apply H0.
        + intros f u s Hf Hu Hs. eapply Rle_trans; [now apply H0|]. lra.
      - destruct (new_near n) as [N1 N2]. destruct (before_near n) as [B1 B2]. cbv zeta in N1, N2, B1, B2.
        destruct (rr_length (S n)) as [_ Lb].
        pose proof (normalize_near rnd ex lg e M Hw g Hsup (before_normalising rnd ex lg c a d (S n)) (L + 2000 + 3 * e)%R Lb (above_before (S n)) ltac:(lra) B2) as Z.
        fold fs lens N in Z. rewrite <- rr_normalize in Z. fold (rr (S n)) in Z.
        assert (Hxe : (0 <= X * e)%R) by (apply Rmult_le_pos; lra).
        assert (S4 : msgs_spread fs (read_msgs fs (before_normalising rnd ex lg c a d (S n))) (damp d' (tt n) (fac_to_var fs pots T (var_to_fac fs evs (tt n))))
          (2 * (3 * e) + (d' * (X * e) + (1 - d') * (soft_error D K Nc T * e + mixing w T * (INR (K - 1) * (0 + INR (D - 1) * (X * e))))))%R).
        { intros f u Hf Hu. eapply spread_trans; [apply spread_near; intros s Hs; now apply B1|].
          apply (damp_spread fs); auto. intros f' u' Hf' Hu'. eapply spread_trans; [now apply N1|].
          pose proof (pos_INR (D - 1)).
          apply (fac_to_var_mix fs (graph_configs_ok _ Hwf) Hac D K Hdeg (positive_fs g Hsup)); auto; try lra.
          - rewrite Rplus_0_l. apply Rmult_le_pos; lra.
          - apply (var_to_fac_spread fs D K); auto. intros y _. apply spread_zero. }
        destruct (normal_spread fs _ _ _ (positive_fs g Hsup) S4) as [Z1 Z2].
        change (normal fs (damp d' (tt n) (fac_to_var fs pots T (var_to_fac fs evs (tt n))))) with (tt (S n)) in Z1, Z2.
        set (z := (2 * (3 * e) + _)%R) in Z1, Z2.
        assert (Ew : (2 * e + z <= X * e)%R).
        { apply (Rmult_le_compat_r e) in Xs; [|lra]. unfold z. unfold rate, gain in Xs. lra. }
        split.
        + intros f u Hf Hu. apply (spread_mono _ _ _ (2 * e + z)%R); [exact Ew|]. eapply spread_trans; [apply spread_near; intros s Hs; now apply Z|]. now apply Z1.
        + intros f u s Hf Hu Hs. specialize (Z f u s Hf Hu Hs). specialize (Z2 f u s Hf Hu Hs). apply Rabs_between in Z. apply Rabs_between in Z2. apply Rabs_le. lra.
    Qed.
  End Run.
End Soft.
