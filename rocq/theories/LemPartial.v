(** * The message passing code stays inside the domains of log and division (C50). *)
From Verif Require Import NumPy Lists FGraph BPState BP Partial SpecFGraph SpecFactor SpecWiring SpecState SpecBP SpecText.
From Verif Require Import LemFGraph LemWiring LemGraph LemState LemNum LemNorm LemVtoF LemEnum LemLogCode LemLogical LemLogBP LemText LemRun LemIter LemPass LemSplit.
From Coq Require Import Reals Lra Lia.
Local Open Scope R_scope.

Lemma map_fst_combine {X Y} (xs : list X) (ys : list Y) : length xs = length ys -> map fst (combine xs ys) = xs.
Proof. revert ys. induction xs as [|x xs IH]; intros [|y ys] H; try discriminate; [reflexivity|]. cbn. f_equal. apply IH. now injection H. Qed.
Lemma map_snd_combine {X Y} (xs : list X) (ys : list Y) : length xs = length ys -> map snd (combine xs ys) = ys.
Proof. revert ys. induction xs as [|x xs IH]; intros [|y ys] H; try discriminate; [reflexivity|]. cbn. f_equal. apply IH. now injection H. Qed.

Section Partial.
  Context (lg dv : R -> R).
  Let W : Num R := PartialNum lg dv.

  Lemma W_ln x : 0 < x -> @nln R W x = ln x.
  Proof. intros H. unfold W, PartialNum. cbn [nln]. destruct (Rlt_dec 0 x); [reflexivity|contradiction]. Qed.
  Lemma W_div x y : y <> 0 -> @ndiv R W x y = x / y.
  Proof. intros H. unfold W, PartialNum. cbn [ndiv]. destruct (Req_EM_T y 0); [contradiction|reflexivity]. Qed.
  Lemma W_sigmoid x : @sigmoid R W x = @sigmoid R RNum x.
  Proof.
    unfold sigmoid. rewrite W_div; [reflexivity|]. change (1 + exp (0 - x) <> 0). pose proof (exp_pos (0 - x)). lra.
  Qed.
  Lemma W_log_sigmoid x : @log_sigmoid R W x = @log_sigmoid R RNum x.
  Proof.
    unfold log_sigmoid. rewrite W_ln; [reflexivity|]. change (0 < 1 + exp (0 - x)). pose proof (exp_pos (0 - x)). lra.
  Qed.
  Lemma sigmoid_pos x : 0 < @sigmoid R RNum x.
  Proof. rewrite sigmoid_R. apply Rinv_0_lt_compat. pose proof (exp_pos (- x)). lra. Qed.
  Lemma W_g_fun T x : T <> 0 -> 0 <= x / T -> @g_fun R W T x = @g_fun R RNum T x.
  Proof.
    intros HT Hx. unfold g_fun. change (@neqb R W x (@n0 R W)) with (@neqb R RNum x (@n0 R RNum)).
    destruct (@neqb R RNum x (@n0 R RNum)) eqn:E; [reflexivity|]. apply neqb_R_false in E. change (@n0 R RNum) with 0 in E.
    rewrite W_div by exact HT. rewrite W_ln; [reflexivity|].
    change (0 < 1 - exp ((0 - x) / T)).
    assert (Hp : 0 < x / T). { destruct Hx as [Hx|Hx]; [exact Hx|]. exfalso. apply E. replace x with (x / T * T) by (field; exact HT). rewrite <- Hx. ring. }
    replace ((0 - x) / T) with (- (x / T)) by (field; exact HT).
    assert (exp (- (x / T)) < exp 0) by (apply exp_increasing; lra). rewrite exp_0 in *. lra.
  Qed.

  (** ** Enumeration factors *)
  Lemma scatter_pos n est vals p : length vals = length est -> (forall i, In i est -> (0 <= i)%Z) -> (forall x, In x vals -> 0 < x) ->
    (p < n)%nat -> In (Z.of_nat p) est -> 0 < nth p (scatter Rplus (repeat 0 n) est vals) 0.
  Proof.
    intros Hl Hi Hv Hp Hin. set (l := combine est vals).
    assert (E1 : est = map fst l) by (unfold l; now rewrite map_fst_combine).
    assert (E2 : vals = map snd l) by (unfold l; now rewrite map_snd_combine).
    rewrite E1, E2. change Rplus with (@nadd R RNum). rewrite nth_scatter_add; [|intros x Hx; apply Hi; rewrite E1; now apply in_map|now rewrite repeat_length].
    rewrite nth_repeat_R, Rplus_0_l. apply rsum_pos.
    - rewrite E1 in Hin. apply in_map_iff in Hin. destruct Hin as [x [Ex Hx]].
      intros F. apply map_eq_nil in F. assert (X : In x []); [|destruct X]. rewrite <- F. apply filter_In. split; [exact Hx|]. now apply Z.eqb_eq.
    - intros x Hx. apply in_map_iff in Hx. destruct Hx as [y [<- Hy]]. apply filter_In in Hy. apply Hv. rewrite E2. apply in_map. tauto.
  Qed.

  Lemma W_enum vt rows lp nc T : T <> 0 -> (forall i, In i (map snd rows) -> (0 <= i)%Z) ->
    (forall p, (p < length vt)%nat -> In (Z.of_nat p) (map snd rows)) ->
    @pass_enum_fac_to_var_messages R W vt rows lp nc T = @pass_enum_fac_to_var_messages R RNum vt rows lp nc T.
  Proof.
    intros HT Hi Hc. unfold pass_enum_fac_to_var_messages.
    change (@neqb R W T (@n0 R W)) with (@neqb R RNum T (@n0 R RNum)).
    assert (ET : @neqb R RNum T (@n0 R RNum) = false) by (apply neqb_R_false; exact HT). rewrite ET.
    change (@vadd R W) with (@vadd R RNum). change (@vsub R W) with (@vsub R RNum).
    change (@nadd R W) with (@nadd R RNum). change (@nmax R W) with (@nmax R RNum). change (@NEG_INF R W) with (@NEG_INF R RNum).
    change (@n0 R W) with (@n0 R RNum). change (@nexp R W) with (@nexp R RNum). change (@nsub R W) with (@nsub R RNum). change (@exp_NEG_INF R W) with (@exp_NEG_INF R RNum).
    set (sm := gather n0 _ (map fst rows)). set (mx := scatter nmax _ _ _).
    f_equal.
    assert (E : map2 (fun s m => nexp (@ndiv R W (nsub s m) T)) sm (gather n0 mx (map snd rows))
              = map2 (fun s m => nexp (@ndiv R RNum (nsub s m) T)) sm (gather n0 mx (map snd rows))).
    { apply map2_ext. intros x y _ _. f_equal. now apply W_div. }
    rewrite E. apply map_ext_in. intros x Hx. change (@nmul R W) with (@nmul R RNum). f_equal. apply W_ln.
    apply (In_nth_iff _ _ 0) in Hx. destruct Hx as [p [Hp <-]]. rewrite scatter_length, repeat_length in Hp.
    apply scatter_pos; [| | |exact Hp|now apply Hc].
    - rewrite map2_length. unfold sm. rewrite !gather_length, !map_length. lia.
    - exact Hi.
    - intros y Hy. clear -Hy. revert Hy. generalize (gather n0 mx (map snd rows)). induction sm as [|a sm IH]; intros [|b bs] Hy; cbn [map2] in Hy; try destruct Hy.
      + subst y. apply exp_pos.
      + now apply (IH bs).
  Qed.

  (** ** Logical factors *)
  Lemma lsm_div T p : T <> 0 -> 0 < lsm T p / T.
  Proof.
    intros HT. unfold lsm. replace (T * ln (1 + exp (p / T)) / T) with (ln (1 + exp (p / T))) by (field; exact HT).
    rewrite <- ln_1. apply ln_increasing; [lra|]. pose proof (exp_pos (p / T)). lra.
  Qed.
  Lemma ls_lsm T p : T <> 0 -> @nmul R RNum (nopp T) (log_sigmoid (ndiv (nopp p) T)) = lsm T p.
  Proof.
    intros HT. unfold log_sigmoid, lsm. rewrite nmul_R, !nopp_R, nadd_R. change (@n1 R RNum) with 1.
    change (@ndiv R RNum) with Rdiv. change (@nexp R RNum) with exp. change (@nln R RNum) with ln.
    replace (- (- p / T)) with (p / T) by (field; exact HT). lra.
  Qed.
  Lemma rsum_div (l : list R) T : rsum l / T = rsum (map (fun x => x / T) l).
  Proof. induction l as [|x l IH]; [rewrite rsum_nil; cbn [map]; rewrite rsum_nil; unfold Rdiv; ring|]. cbn [map]. rewrite !rsum_cons, <- IH. unfold Rdiv. ring. Qed.

  Lemma W_logical_sum T (l : list (Z * R)) C nf : T <> 0 -> (forall x, In x l -> (0 <= fst x < Z.of_nat nf)%Z) ->
    @logical_sum_product R W T (map snd l) C (map fst l) nf = @logical_sum_product R RNum T (map snd l) C (map fst l) nf.
  Proof.
    intros HT Hl. unfold logical_sum_product.
    assert (E1 : map (fun p => @nmul R W (@nopp R W T) (@log_sigmoid R W (@ndiv R W (@nopp R W p) T))) (map snd l) = map (fun x => lsm T (snd x)) l).
    { rewrite map_map. apply map_ext. intros x. rewrite W_log_sigmoid, W_div by exact HT. exact (ls_lsm T (snd x) HT). }
    assert (E1' : map (fun p => @nmul R RNum (nopp T) (log_sigmoid (ndiv (nopp p) T))) (map snd l) = map (fun x => lsm T (snd x)) l).
    { rewrite map_map. apply map_ext. intros x. exact (ls_lsm T (snd x) HT). }
    rewrite E1, E1'. clear E1 E1'.
    change (@vsub R W) with (@vsub R RNum). change (@nadd R W) with (@nadd R RNum). change (@n0 R W) with (@n0 R RNum).
    set (S := scatter nadd (repeat n0 nf) (map fst l) (map (fun x => lsm T (snd x)) l)).
    assert (HS : forall f, (f < nf)%nat -> nth f S 0 = rsum (map (fun x => lsm T (snd x)) (filter (fun x => (fst x =? Z.of_nat f)%Z) l))).
    { intros f Hf. unfold S. change (@n0 R RNum) with 0. rewrite nth_scatter_add; [|intros x Hx; apply Hl in Hx; lia|now rewrite repeat_length]. rewrite nth_repeat_R. ring. }
    assert (LS : length S = nf) by (unfold S; now rewrite scatter_length, repeat_length).
    assert (P1 : map (@g_fun R W T) S = map (@g_fun R RNum T) S).
    { apply map_ext_in. intros x Hx. apply W_g_fun; [exact HT|]. apply (In_nth_iff _ _ 0) in Hx. destruct Hx as [f [Hf <-]]. rewrite LS in Hf.
      rewrite HS, rsum_div, map_map by exact Hf. apply rsum_nonneg. intros y Hy. apply in_map_iff in Hy. destruct Hy as [z [<- _]]. apply Rlt_le, lsm_div, HT. }
    assert (P2 : map (@g_fun R W T) (vsub (gather n0 S (map fst l)) (map (fun x => lsm T (snd x)) l))
               = map (@g_fun R RNum T) (vsub (gather n0 S (map fst l)) (map (fun x => lsm T (snd x)) l))).
    { apply map_ext_in. intros y Hy. apply W_g_fun; [exact HT|]. unfold vsub, gather in Hy. rewrite map_map in Hy. rewrite map2_map in Hy.
      apply in_map_iff in Hy. destruct Hy as [x [<- Hx]]. rewrite nsub_R. pose proof (Hl x Hx) as Hr.
      rewrite gather1_in by (rewrite LS; lia). change (@n0 R RNum) with 0. rewrite HS by lia. rewrite Z2Nat.id by lia.
      apply in_split in Hx. destruct Hx as [l1 [l2 ->]]. rewrite filter_app. cbn [filter]. rewrite Z.eqb_refl.
      rewrite map_app, rsum_app. cbn [map]. rewrite rsum_cons.
      match goal with |- 0 <= (?a + (?b + ?c) - ?b) / T => replace ((a + (b + c) - b) / T) with (a / T + c / T) by (unfold Rdiv; ring) end.
      assert (Q : forall k : list (Z * R), 0 <= rsum (map (fun x => lsm T (snd x)) k) / T).
      { intros k. rewrite rsum_div, map_map. apply rsum_nonneg. intros y Hy. apply in_map_iff in Hy. destruct Hy as [z [<- _]]. apply Rlt_le, lsm_div, HT. }
      apply Rplus_le_le_0_compat; apply Q. }
    rewrite P1, P2. f_equal. apply map2_ext. intros a c _ _. change (@nmul R W) with (@nmul R RNum). change (@nopp R W) with (@nopp R RNum). f_equal.
    rewrite !W_sigmoid, !W_div by exact HT. rewrite W_ln; [reflexivity|].
    change (0 < @sigmoid R RNum (a / T) + @sigmoid R RNum ((0 - a) / T) * exp ((0 - c) / T)).
    pose proof (sigmoid_pos (a / T)). pose proof (sigmoid_pos ((0 - a) / T)). pose proof (exp_pos ((0 - c) / T)).
    assert (0 < @sigmoid R RNum ((0 - a) / T) * exp ((0 - c) / T)) by now apply Rmult_lt_0_compat. lra.
  Qed.

  Lemma W_logical vt ps cs o T : T <> 0 -> (forall x, In x ps -> (0 <= fst x < Z.of_nat (length cs))%Z) ->
    @pass_logical_fac_to_var_messages R W vt ps cs o T = @pass_logical_fac_to_var_messages R RNum vt ps cs o T.
  Proof.
    intros HT Hp. unfold pass_logical_fac_to_var_messages.
    change (@neqb R W T (@n0 R W)) with (@neqb R RNum T (@n0 R RNum)).
    assert (ET : @neqb R RNum T (@n0 R RNum) = false) by (apply neqb_R_false; exact HT). rewrite ET.
    change (@vsub R W) with (@vsub R RNum). change (@n0 R W) with (@n0 R RNum).
    set (P := vsub (gather n0 vt (map (fun i => (i + o)%Z) (map snd ps))) (gather n0 vt (map snd ps))).
    assert (LP : length P = length (map fst ps)) by (unfold P, vsub; rewrite map2_length, !gather_length, !map_length; lia).
    set (C := vsub _ (gather n0 vt cs)).
    assert (E : @logical_sum_product R W T P C (map fst ps) (length cs) = @logical_sum_product R RNum T P C (map fst ps) (length cs)).
    { set (l := combine (map fst ps) P). assert (E1 : map fst ps = map fst l) by (unfold l; now rewrite map_fst_combine).
      assert (E2 : P = map snd l) by (unfold l; now rewrite map_snd_combine). rewrite E1, E2. apply W_logical_sum; [exact HT|].
      intros x Hx. assert (Hx' : In (fst x) (map fst l)) by now apply in_map. rewrite <- E1 in Hx'. apply in_map_iff in Hx'. destruct Hx' as [y [<- Hy]]. now apply Hp. }
    rewrite E. reflexivity.
  Qed.

  (** ** Graphs *)
  Lemma lf_parents_range rs vss x : In x (lf_parents rs vss) -> (0 <= fst x < Z.of_nat (length (lf_children rs vss)))%Z.
  Proof.
    intros Hx. unfold lf_parents in Hx. apply in_flat_map in Hx. destruct Hx as [f [Hf Hx]]. apply in_seq in Hf.
    apply in_map_iff in Hx. destruct Hx as [u [<- _]]. cbn [fst]. unfold lf_children. rewrite map_length, seq_length. lia.
  Qed.
  Lemma rows_range {A} (fs : list (sfactor A)) : configs_ok fs -> forall i, In i (map snd (sf_rows fs)) -> (0 <= i)%Z.
  Proof.
    intros Hok i Hi. rewrite (proj2 (rows_triples fs Hok)) in Hi. apply in_map_iff in Hi. destruct Hi as [t [<- _]]. unfold t_est. lia.
  Qed.
  Lemma slot_split {A} (fs : list (sfactor A)) p : (p < total_states fs)%nat ->
    exists f u s, (f < length fs)%nat /\ (u < arity fs f)%nat /\ (s < snd (var_at fs f u))%nat /\ p = slot_index fs f u s.
  Proof.
    intros Hp. unfold total_states in Hp. destruct (off_split _ _ Hp) as [e [s [He [Hs ->]]]]. rewrite map_length in He.
    assert (Hin : In e (map (edge_no fs) (slots fs))) by (rewrite edges_slots; apply in_seq; lia).
    apply in_map_iff in Hin. destruct Hin as [[f u] [<- Hfu]]. apply In_slots in Hfu. cbn [fst snd] in Hfu. destruct Hfu as [Hf Hu].
    exists f, u, s. split; [exact Hf|]. split; [exact Hu|]. split; [|reflexivity].
    unfold edge_no in Hs. cbn [fst snd] in Hs. rewrite slot_states in Hs by assumption. exact Hs.
  Qed.
  Lemma rows_cover {A} (fs : list (sfactor A)) : configs_ok fs -> covered fs ->
    forall p, (p < total_states fs)%nat -> In (Z.of_nat p) (map snd (sf_rows fs)).
  Proof.
    intros Hok Hc p Hp. rewrite (proj2 (rows_triples fs Hok)). destruct (slot_split fs p Hp) as [f [u [s [Hf [Hu [Hs ->]]]]]].
    specialize (Hc f u s Hf Hu Hs). destruct (choices fs f u s) as [|c l] eqn:E; [contradiction|].
    assert (Hin : In c (choices fs f u s)) by (rewrite E; now left). apply choice_iff in Hin. destruct Hin as [H1 H2].
    apply in_map_iff. exists (f, (c, u)). split; [unfold t_est; cbn [fst snd]; now rewrite H2|]. now apply In_triples.
  Qed.

  Section Graph.
    Context (junk : nat -> Z) (g : fgraph R) (st : fg_state R).
    Hypothesis Hwf : wf_groups (gr_groups g).
    Hypothesis Hst : compile_fg_state junk g = Ok st.
    Let fsE := enum_factors (gr_groups g).
    Let fs := graph_factors 0 (gr_groups g).

    Lemma W_pass T lp vt : length vt = total_states fs -> (T <> 0 -> covered fsE) ->
      @pass_fac_to_var_messages R W st T lp vt = @pass_fac_to_var_messages R RNum st T lp vt.
    Proof.
      intros Hvt Hc. destruct (Req_EM_T T 0) as [->|HT].
      { unfold pass_fac_to_var_messages, pass_enum_fac_to_var_messages, pass_logical_fac_to_var_messages.
        change (@neqb R W 0 (@n0 R W)) with (@neqb R RNum 0 (@n0 R RNum)).
        assert (E : @neqb R RNum 0 (@n0 R RNum) = true) by now apply neqb_R. rewrite E. reflexivity. }
      specialize (Hc HT). unfold fs in Hvt. rewrite (graph_fs (gr_groups g)) in Hvt. rewrite !total_states_app in Hvt.
      set (fsO := map (logical_sf 0 TOr) (logical_factors TOr (gr_groups g))) in *.
      set (fsA := map (logical_sf 0 TAnd) (logical_factors TAnd (gr_groups g))) in *. fold fsE in Hvt.
      set (vE := firstn (total_states fsE) vt). set (vO' := firstn (total_states fsO) (skipn (total_states fsE) vt)).
      set (vA' := skipn (total_states fsO) (skipn (total_states fsE) vt)).
      assert (Ev : vt = vE ++ vO' ++ vA') by (unfold vE, vO', vA'; now rewrite !firstn_skipn).
      assert (LE : length vE = total_states fsE) by (unfold vE; rewrite firstn_length; lia).
      assert (LO : length vO' = total_states fsO) by (unfold vO'; rewrite firstn_length, skipn_length; lia).
      assert (LA : length vA' = total_states fsA) by (unfold vA'; rewrite !skipn_length; lia).
      rewrite Ev. rewrite !(pass_split_N _ (gr_groups g) Hwf junk g st eq_refl Hst T lp vE vO' vA' LE LO LA).
      fold fsE. rewrite W_enum; [|exact HT|apply rows_range, (enum_configs_ok _ Hwf)|rewrite LE; apply rows_cover; [apply (enum_configs_ok _ Hwf)|exact Hc]].
      f_equal. f_equal; (apply W_logical; [exact HT|apply lf_parents_range]).
    Qed.
  End Graph.

  Lemma W_run vgs (g : fgraph R) T (c : bp_ctx R) a d n :
    groups_ok vgs -> reachable vgs g -> wf_groups (gr_groups g) -> bp_of g T c -> arrays_of c a ->
    (T <> 0 -> covered (enum_factors (gr_groups g))) ->
    @run_bp R W c a n d = @run_bp R RNum c a n d.
  Proof.
    intros Hg Hr Hwf Hbp Ha Hc. destruct (iter_sizes g T c Hwf Hbp a Ha) as [S1 [S2 [bs0 HB0]]].
    destruct Hbp as [junk [bs [Hst HB]]]. destruct (BP_fields _ _ _ HB) as [E1 [E2 _]]. rewrite <- E1 in Hst.
    assert (Hn : forall k, ba_ftov_msgs (@run_bp R W c a k d) = ba_ftov_msgs (@run_bp R RNum c a k d)).
    { induction k as [|k IH]; [reflexivity|].
      change (@bp_step R W c (ba_log_potentials a) (ba_evidence a) d (ba_ftov_msgs (@run_bp R W c a k d)) =
              @bp_step R RNum c (ba_log_potentials a) (ba_evidence a) d (ba_ftov_msgs (@run_bp R RNum c a k d))). rewrite IH.
      set (m := ba_ftov_msgs (@run_bp R RNum c a k d)). assert (Lm : length m = length (ba_ftov_msgs a)) by exact (run_bp_length c a d k S2).
      unfold bp_step. change (@normalize_and_clip_msgs R W) with (@normalize_and_clip_msgs R RNum). f_equal.
      change (@pass_var_to_fac_messages R W) with (@pass_var_to_fac_messages R RNum).
      rewrite (W_pass junk g _ Hwf Hst); [reflexivity| |rewrite E2; exact Hc].
      rewrite pass_var_to_fac_length, S2, Lm, Nat.min_id. destruct Ha as [_ [A2 _]]. rewrite A2. apply (state_sizes junk g _ Hwf Hst). }
    specialize (Hn n). unfold run_bp in *. f_equal. exact Hn.
  Qed.
  Lemma W_marginals b : @get_marginals R W b = @get_marginals R RNum b.
  Proof.
    assert (E : forall xs, @marginals_row R W xs = @marginals_row R RNum xs).
    { intros xs. unfold marginals_row. assert (L : @logsumexp R W xs = @logsumexp R RNum xs); [|rewrite L; reflexivity].
      unfold logsumexp. change (@ext_max R W) with (@ext_max R RNum). destruct (fold_left ext_max xs NInf) as [|m] eqn:Em; [reflexivity|].
      rewrite W_ln; [reflexivity|]. change (0 < rsum (map (fun x => @ext_exp_sub R RNum x m) xs)).
      assert (Hin : In (Fin m) xs).
      { assert (G : forall l b, fold_left (@ext_max R RNum) l b = Fin m -> In (Fin m) l \/ b = Fin m).
        { induction l as [|x l IH]; intros b0 Hb; [now right|]. cbn [fold_left] in Hb. destruct (IH _ Hb) as [Hi|Hi]; [left; now right|].
          unfold ext_max in Hi. destruct (ext_ltb b0 x); [left; now left|now right]. }
        destruct (G _ _ Em) as [X|X]; [exact X|discriminate]. }
      apply in_split in Hin. destruct Hin as [l1 [l2 ->]]. rewrite map_app, rsum_app. cbn [map]. rewrite rsum_cons.
      assert (Q : forall l, 0 <= rsum (map (fun x => @ext_exp_sub R RNum x m) l)).
      { intros l. apply rsum_nonneg. intros x Hx. apply in_map_iff in Hx. destruct Hx as [[|y] [<- _]]; cbn [ext_exp_sub]; [apply Rle_refl|apply Rlt_le, exp_pos]. }
      pose proof (Q l1). pose proof (Q l2). assert (0 < @ext_exp_sub R RNum (Fin m) m) by (cbn [ext_exp_sub]; apply exp_pos). lra. }
    unfold get_marginals, map_beliefs. apply mapM_ext. intros kv _. assert (F : forall x, @marginals_array R W x = @marginals_array R RNum x).
    { intros x. unfold marginals_array. assert (G : along_last (@marginals_row R W) x = along_last (@marginals_row R RNum) x); [|now rewrite G].
      unfold along_last. destruct (rev (shape x)) as [|[|m] r]; try reflexivity. do 2 f_equal. apply map_ext. exact E. }
    assert (G : map_gdata (@marginals_array R W) (snd kv) = map_gdata (@marginals_array R RNum) (snd kv)); [|now rewrite G].
    unfold map_gdata. destruct (snd kv) as [x|m]; [now rewrite F|].
    assert (H : mapM (fun kv0 => y <- @marginals_array R W (snd kv0);; Ok (fst kv0, y)) m = mapM (fun kv0 => y <- @marginals_array R RNum (snd kv0);; Ok (fst kv0, y)) m); [|now rewrite H].
    apply mapM_ext. intros k _. now rewrite F.
  Qed.
  Lemma W_update st (ms : list R) us : @update_ftov_msgs R W st ms us = @update_ftov_msgs R RNum st ms us.
  Proof.
    unfold update_ftov_msgs. revert ms. induction us as [|[x d] us IH]; intros ms; [reflexivity|]. cbn [foldM].
    assert (E : @update_ftov_msgs_step R W st ms (x, d) = @update_ftov_msgs_step R RNum st ms (x, d)).
    { unfold update_ftov_msgs_step. destruct (dget var_eqb x (st_vars_to_starts st)) as [v|]; [|reflexivity].
      destruct (negb (shape_eqb (shape d) [snd x])); [reflexivity|].
      destruct (nonzero_eq (all_var_states_for_edges (st_wiring st)) (Z.of_nat v)) as [|s0 l] eqn:El; [reflexivity|].
      assert (F : map (fun y => @ndiv R W y (nofZ (Z.of_nat (length (s0 :: l))))) (data d) = map (fun y => @ndiv R RNum y (nofZ (Z.of_nat (length (s0 :: l))))) (data d)).
      { apply map_ext. intros y. apply W_div. cbn [length]. change (IZR (Z.of_nat (S (length l))) <> 0). rewrite <- INR_IZR_INZ. apply not_0_INR. discriminate. }
      cbv zeta. change (@nofZ R W) with (@nofZ R RNum). rewrite F. reflexivity. }
    rewrite E. destruct (@update_ftov_msgs_step R RNum st ms (x, d)); cbn [bind]; [apply IH|reflexivity].
  Qed.

  (** A state in no configuration: the log of zero is taken. *)
  Lemma filter_none {X} (P : X -> bool) l : (forall x, In x l -> P x = false) -> filter P l = [].
  Proof. induction l as [|x l IH]; intros H; [reflexivity|]. cbn. rewrite H by now left. apply IH. intros y Hy. apply H. now right. Qed.
  Lemma scatter_none f b est vals p : (forall i, In i est -> (0 <= i)%Z) -> (p < length b)%nat -> ~ In (Z.of_nat p) est ->
    nth p (@scatter R R f b est vals) 0 = nth p b 0.
  Proof.
    intros Hi Hp Hn. unfold scatter. rewrite nth_scatter_pairs; [|intros [i x] H; apply Hi; now apply in_combine_l in H|exact Hp].
    rewrite filter_none; [reflexivity|]. intros [i x] H. apply in_combine_l in H. cbn [fst]. apply Z.eqb_neq. intros ->. contradiction.
  Qed.
  Lemma W_none vt rows lp nc T p : T <> 0 -> (forall i, In i (map snd rows) -> (0 <= i)%Z) -> (p < length vt)%nat ->
    ~ In (Z.of_nat p) (map snd rows) ->
    nth p (@pass_enum_fac_to_var_messages R W vt rows lp nc T) 0 = neg_inf - nth p vt 0 + T * lg 0.
  Proof.
    intros HT Hi Hp Hn. unfold pass_enum_fac_to_var_messages.
    change (@neqb R W T (@n0 R W)) with (@neqb R RNum T (@n0 R RNum)).
    assert (ET : @neqb R RNum T (@n0 R RNum) = false) by (apply neqb_R_false; exact HT). rewrite ET.
    unfold vadd at 1, vsub at 1.
    rewrite (nth_map2 _ _ _ _ _ 0 0) by (rewrite ?map2_length, ?map_length, ?scatter_length, ?repeat_length; lia).
    rewrite (nth_map2 _ _ _ _ _ 0 0) by (rewrite ?scatter_length, ?repeat_length; lia).
    rewrite (nth_map _ _ _ _ 0) by (rewrite scatter_length, repeat_length; lia).
    rewrite !scatter_none by (try rewrite repeat_length; auto). rewrite !nth_repeat_lt by exact Hp.
    change (@exp_NEG_INF R W) with 0.
    assert (E : @nln R W 0 = lg 0) by (unfold W, PartialNum; cbn [nln]; destruct (Rlt_dec 0 0) as [H|_]; [exfalso; lra|reflexivity]).
    rewrite E. reflexivity.
  Qed.
  Lemma W_uncovered {A} (fs : list (sfactor A)) vt lp T f u s : configs_ok fs -> length vt = total_states fs -> T <> 0 ->
    (f < length fs)%nat -> (u < arity fs f)%nat -> (s < snd (var_at fs f u))%nat -> choices fs f u s = [] ->
    read_msgs fs (@pass_enum_fac_to_var_messages R W vt (sf_rows fs) lp (total_configs fs) T) f u s
    = neg_inf - read_msgs fs vt f u s + T * lg 0.
  Proof.
    intros Hok Hl HT Hf Hu Hs Hn. unfold read_msgs. apply W_none; [exact HT|now apply rows_range|rewrite Hl; now apply slot_index_lt|].
    rewrite (proj2 (rows_triples fs Hok)). intros H. apply in_map_iff in H. destruct H as [[f' [c u']] [E H]]. unfold t_est in E. cbn [fst snd] in E.
    apply Nat2Z.inj in E. apply In_triples in H. destruct H as [Hf' [Hc Hu']].
    apply (slot_index_inj fs) in E; auto; [|now apply config_lt]. destruct E as [-> [-> E]].
    assert (X : In c (choices fs f u s)) by (apply choice_iff; auto). rewrite Hn in X. destruct X.
  Qed.
End Partial.
