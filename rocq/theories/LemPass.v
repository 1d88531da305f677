(** * One round of messages on a compiled graph (towards C23-C28). *)
From Verif Require Import NumPy Lists FGraph BPState BP SpecFGraph SpecFactor SpecWiring SpecState SpecBP SpecText.
From Verif Require Import LemFGraph LemWiring LemGraph LemState LemNum LemNorm LemVtoF LemEnum LemLogCode LemLogical LemLogBP LemText LemRun.
From Coq Require Import Reals Lra Lia.
Local Open Scope nat_scope.

Lemma floor_cong {A} (fs : list (sfactor A)) pots pots' v v' f u s : configs_ok fs -> msg_eq fs v v' -> f < length fs -> u < arity fs f -> s < snd (var_at fs f u) ->
  (forall c, c < length (sf_configs (factor_at fs f)) -> pots f c = pots' f c) ->
  fac_to_var_floor fs pots v f u s = fac_to_var_floor fs pots' v' f u s.
Proof.
  intros Hok Hv Hf Hu Hs Hp. unfold fac_to_var_floor. rewrite (Hv f u s Hf Hu Hs). f_equal. f_equal. apply map_ext_in.
  intros c Hc. apply choice_iff in Hc. destruct Hc as [Hc _]. rewrite (score_cong fs pots Hok v v') by assumption. unfold score. now rewrite Hp.
Qed.
Lemma floor_app1 {A} (fs1 fs2 : list (sfactor A)) pots v f u s : f < length fs1 ->
  fac_to_var_floor (fs1 ++ fs2) pots v f u s = fac_to_var_floor fs1 pots v f u s.
Proof.
  intros Hf. unfold fac_to_var_floor. f_equal. f_equal. rewrite choices_app1 by exact Hf. apply map_ext. intros c. now apply score_app1.
Qed.

Section Parts.
  Context (G : per_type (list (fgroup R))).
  Hypothesis Hwf : wf_groups G.
  Let fsE := enum_factors G.
  Let vO := logical_factors TOr G.
  Let vA := logical_factors TAnd G.
  Let fsO := map (logical_sf 0%R TOr) vO.
  Let fsA := map (logical_sf 0%R TAnd) vA.
  Let fs := graph_factors 0%R G.
  Let ne := length fsE.
  Context (junk : nat -> Z) (g : fgraph R) (st : fg_state R).
  Hypothesis HG : gr_groups g = G.
  Hypothesis Hst : compile_fg_state junk g = Ok st.

  Context (T : R) (lp vt : list R).
  Hypothesis Hvt : length vt = total_states fs.
  Hypothesis Hlp : total_configs fsE <= length lp.
  Let v := read_msgs fs vt.
  Let new := read_msgs fs (pass_fac_to_var_messages st T lp vt).
  Let lpE := slice lp 0 (total_configs fsE).

  Lemma parts : exists vE vO' vA', length vE = total_states fsE /\ length vO' = total_states fsO /\ length vA' = total_states fsA /\
    msg_eq fsE (read_msgs fsE vE) v /\
    (forall f u s, f < length fsO -> u < arity fsO f -> s < snd (var_at fsO f u) -> read_msgs fsO vO' f u s = v (ne + f) u s) /\
    (forall f u s, read_msgs fsA vA' f u s = v (ne + (length fsO + f)) u s) /\
    (forall f u s, f < ne -> u < arity fs f -> s < snd (var_at fs f u) ->
       new f u s = read_msgs fsE (pass_enum_fac_to_var_messages vE (sf_rows fsE) lpE (total_configs fsE) T) f u s) /\
    (forall f u s, f < length fsO -> u < arity fs (ne + f) -> s < snd (var_at fs (ne + f) u) ->
       new (ne + f) u s = read_msgs fsO (pass_logical_fac_to_var_messages vO' (lf_parents 0 vO) (lf_children 0 vO) 1 T) f u s) /\
    (forall f u s, f < length fsA ->
       new (ne + (length fsO + f)) u s = read_msgs fsA (pass_logical_fac_to_var_messages vA' (lf_parents 1 vA) (lf_children 1 vA) (-1) T) f u s).
  Proof.
    pose proof Hvt as Hvt'. unfold fs in Hvt'. rewrite (graph_fs G) in Hvt'. fold fsE vO vA fsO fsA in Hvt'. rewrite !total_states_app in Hvt'.
    set (vE := firstn (total_states fsE) vt). set (vO' := firstn (total_states fsO) (skipn (total_states fsE) vt)).
    set (vA' := skipn (total_states fsO) (skipn (total_states fsE) vt)).
    assert (Ev : vt = vE ++ vO' ++ vA') by (unfold vE, vO', vA'; now rewrite !firstn_skipn).
    assert (LE : length vE = total_states fsE) by (unfold vE; rewrite firstn_length; lia).
    assert (LO : length vO' = total_states fsO) by (unfold vO'; rewrite firstn_length, skipn_length; lia).
    assert (LA : length vA' = total_states fsA) by (unfold vA'; rewrite !skipn_length; lia).
    exists vE, vO', vA'. split; [exact LE|]. split; [exact LO|]. split; [exact LA|].
    unfold new, v. rewrite Ev. rewrite (pass_split G Hwf junk g st HG Hst T lp vE vO' vA' LE LO LA).
    fold fsE vO vA fsO fsA.
    clear Ev. clearbody vE vO' vA'. clear Hvt' Hvt.
    set (NE := pass_enum_fac_to_var_messages _ _ _ _ _).
    set (NO := pass_logical_fac_to_var_messages vO' _ _ _ _). set (NA := pass_logical_fac_to_var_messages vA' _ _ _ _).
    assert (LNE : length NE = total_states fsE) by (unfold NE; now rewrite pass_enum_length).
    assert (LNO : length NO = total_states fsO) by (unfold NO; now rewrite pass_logical_length).
    unfold fs. rewrite (graph_fs G). fold fsE vO vA fsO fsA. unfold ne.
    split; [intros f u s Hf Hu Hs; symmetry; now apply read_app1|].
    split; [intros f u s Hf Hu Hs; rewrite read_app2 by exact LE; symmetry; now apply read_app1|].
    split; [intros f u s; rewrite read_app2 by exact LE; now rewrite read_app2 by exact LO|].
    split; [intros f u s Hf Hu Hs; rewrite arity_app1 in Hu by exact Hf; rewrite var_app1 in Hs by exact Hf; now apply read_app1|].
    split.
    - intros f u s Hf Hu Hs. rewrite arity_app2, arity_app1 in Hu by exact Hf. rewrite var_app2, var_app1 in Hs by exact Hf.
      rewrite read_app2 by exact LNE. now apply read_app1.
    - intros f u s Hf. rewrite read_app2 by exact LNE. rewrite read_app2 by exact LNO. unfold NA.
      destruct vA as [|v0 vr]; [cbn in Hf; lia|reflexivity].
  Qed.

  Lemma Efs : fs = fsE ++ fsO ++ fsA. Proof. exact (graph_fs G). Qed.
  Lemma parts_ok : configs_ok fsE /\ configs_ok fsO /\ configs_ok fsA.
  Proof.
    pose proof (graph_sf_ok G Hwf) as H. unfold graph_factors in H. rewrite !Forall_app in H.
    split; [|split]; apply configs_ok_iff; apply H.
  Qed.
  Lemma parts_pots f c : f < ne -> c < length (sf_configs (factor_at fsE f)) -> read_pots fsE lpE f c = graph_pots G lp f c.
  Proof.
    intros Hf Hc. unfold graph_pots. fold fsE. fold ne. destruct (Nat.ltb_spec f ne); [|lia]. unfold read_pots, lpE.
    rewrite nth_slice; [reflexivity|]. pose proof (first_config_lt fsE f c Hf Hc). unfold total_configs. lia.
  Qed.
  Lemma lpE_length : length lpE = total_configs fsE.
  Proof. unfold lpE. rewrite slice_length; lia. Qed.

  Lemma graph_enum_max f u s : T = 0%R -> f < ne -> u < arity fs f -> s < snd (var_at fs f u) ->
    new f u s = fac_to_var_floor fs (graph_pots G lp) v f u s.
  Proof.
    intros HT Hf Hu Hs. destruct parts as [vE [vO' [vA' [LE [_ [_ [VE [_ [_ [P _]]]]]]]]]]. rewrite (P f u s Hf Hu Hs). clear P.
    rewrite Efs in Hu, Hs |- *. rewrite arity_app1 in Hu by exact Hf. rewrite var_app1 in Hs by exact Hf.
    rewrite floor_app1 by exact Hf. rewrite HT.
    etransitivity; [exact (enum_max_lemma fsE (proj1 parts_ok) vE lpE LE lpE_length f u s Hf Hu Hs)|].
    apply floor_cong; [apply parts_ok|exact VE|exact Hf|exact Hu|exact Hs|]. intros c Hc. now apply parts_pots.
  Qed.
  Lemma graph_enum_soft f u s : T <> 0%R -> f < ne -> u < arity fs f -> s < snd (var_at fs f u) -> choices fs f u s <> [] ->
    new f u s = fac_to_var_soft fs (graph_pots G lp) T v f u s.
  Proof.
    intros HT Hf Hu Hs Hc. destruct parts as [vE [vO' [vA' [LE [_ [_ [VE [_ [_ [P _]]]]]]]]]]. rewrite (P f u s Hf Hu Hs). clear P.
    assert (E : fac_to_var_soft fs (graph_pots G lp) T v f u s = fac_to_var fs (graph_pots G lp) T v f u s).
    { unfold fac_to_var. destruct (Req_EM_T T 0); [contradiction|reflexivity]. }
    rewrite E. clear E.
    rewrite Efs in Hu, Hs, Hc |- *. rewrite arity_app1 in Hu by exact Hf. rewrite var_app1 in Hs by exact Hf.
    rewrite choices_app1 in Hc by exact Hf.
    rewrite fac_to_var_app1 by exact Hf.
    etransitivity; [exact (enum_soft_lemma fsE (proj1 parts_ok) vE lpE LE lpE_length T HT f u s Hf Hu Hs Hc)|].
    assert (E : fac_to_var_soft fsE (read_pots fsE lpE) T (read_msgs fsE vE) f u s = fac_to_var fsE (read_pots fsE lpE) T (read_msgs fsE vE) f u s).
    { unfold fac_to_var. destruct (Req_EM_T T 0); [contradiction|reflexivity]. }
    rewrite E. rewrite (fac_to_var_cong fsE _ (proj1 parts_ok) T _ v VE f u s Hf Hu Hs). apply fac_to_var_pots. intros c Hc'. now apply parts_pots.
  Qed.
  (** Logical factors. *)
  Lemma graph_logical : 
    (T = 0%R -> forall f u s s', ne <= f < length fs -> u < arity fs f -> s < snd (var_at fs f u) -> s' < snd (var_at fs f u) ->
       (neg_inf < v f u s - v f u s')%R) ->
    forall f u, ne <= f < length fs -> u < arity fs f ->
      exists k, forall s, s < snd (var_at fs f u) -> new f u s = (fac_to_var fs (graph_pots G lp) T v f u s + k)%R.
  Proof.
    intros HrL f u Hf Hu. destruct parts as [vE [vO' [vA' [LE [LO [LA [VE [VO [VA [_ [PO PA]]]]]]]]]]].
    destruct parts_ok as [okE [okO okA]].
    assert (Hp : forall f c, graph_pots G lp (length fsE + f) c = 0%R).
    { intros f' c. unfold graph_pots. fold fsE. destruct (Nat.ltb_spec (length fsE + f') (length fsE)); [lia|reflexivity]. }
    unfold ne in *. replace f with (length fsE + (f - length fsE)) in * by lia. set (f1 := f - length fsE) in *. clearbody f1.
    rewrite Efs in Hu, Hf, HrL, PO |- *.
    rewrite !app_length in Hf. pose proof Hu as Hu0. rewrite arity_app2 in Hu. rewrite var_app2.
    destruct (Nat.lt_ge_cases f1 (length fsO)) as [Hfo|Hfo].
    - rewrite arity_app1 in Hu by exact Hfo. rewrite var_app1 by exact Hfo.
      destruct (logical_text TOr vO vO' T ltac:(discriminate) (logical_ok_type G Hwf TOr ltac:(discriminate)) LO) as [Hkk _]; [|destruct (Hkk f1 u Hfo Hu) as [k Hk]].
      { intros HT f' u' s s' Hf' Hu' Hs Hs'. fold fsO in Hf', Hu' |- *.
        assert (S2 : snd (var_at fsO f' u') = 2). { apply (states_logical 0%R TOr vO (logical_ok_type G Hwf TOr ltac:(discriminate))); [unfold fsO in Hf'; now rewrite map_length in Hf'|exact Hu']. }
        rewrite !VO by (auto; now rewrite S2). apply (HrL HT); [rewrite !app_length; lia|now rewrite arity_app2, arity_app1| |]; rewrite var_app2, var_app1 by exact Hf'; now rewrite S2. }
      fold fsO in Hk. cbn [relevant_state type_offset] in Hk.
      exists k. intros s Hs. rewrite PO by (auto; rewrite ?var_app2, ?var_app1 by exact Hfo; exact Hs). rewrite fac_to_var_app2, fac_to_var_app1 by exact Hfo.
      rewrite Hk by exact Hs. f_equal.
      rewrite (fac_to_var_cong fsO no_pots okO T (read_msgs fsO vO') (fun f => v (length fsE + f)) VO f1 u s Hfo Hu Hs).
      apply fac_to_var_pots. intros c _. symmetry. apply Hp.
    - replace f1 with (length fsO + (f1 - length fsO)) in * by lia. set (f2 := f1 - length fsO) in *. clearbody f2.
      rewrite arity_app2 in Hu. rewrite var_app2. assert (Hfa : f2 < length fsA) by lia.
      destruct (logical_text TAnd vA vA' T ltac:(discriminate) (logical_ok_type G Hwf TAnd ltac:(discriminate)) LA) as [Hkk _]; [|destruct (Hkk f2 u Hfa Hu) as [k Hk]].
      { intros HT f' u' s s' Hf' Hu' Hs Hs'. fold fsA in Hf', Hu' |- *.
        assert (S2 : snd (var_at fsA f' u') = 2). { apply (states_logical 0%R TAnd vA (logical_ok_type G Hwf TAnd ltac:(discriminate))); [unfold fsA in Hf'; now rewrite map_length in Hf'|exact Hu']. }
        rewrite !VA. apply (HrL HT); [rewrite !app_length; lia|now rewrite !arity_app2| |]; rewrite !var_app2; now rewrite S2. }
      fold fsA in Hk. cbn [relevant_state type_offset] in Hk.
      exists k. intros s Hs. rewrite PA by exact Hfa. rewrite !fac_to_var_app2.
      rewrite Hk by exact Hs. f_equal.
      rewrite (fac_to_var_cong fsA no_pots okA T (read_msgs fsA vA') (fun f => v (length fsE + (length fsO + f))) ltac:(intros ? ? ? _ _ _; apply VA) f2 u s Hfa Hu Hs).
      apply fac_to_var_pots. intros c _. symmetry. apply Hp.
  Qed.
End Parts.

(** ** C28 *)
Lemma fac_to_var_pots0 {A} (fs : list (sfactor A)) pots v T f u s : (forall f c, pots f c = 0%R) ->
  fac_to_var fs pots T v f u s = fac_to_var fs no_pots T v f u s.
Proof. intros H. apply fac_to_var_pots. intros c _. apply H. Qed.

Lemma logical_configs_okR t vss : t <> TEnum -> logical_ok vss -> configs_ok (map (logical_sf 0%R t) vss).
Proof. intros Ht Hok. apply configs_ok_iff, Forall_forall. intros F HF. apply in_map_iff in HF. destruct HF as [vs [<- Hvs]]. destruct (Hok vs Hvs). now apply logical_sf_ok. Qed.

Lemma C28_lemma t vss (vt : list R) T : t <> TEnum -> logical_ok vss ->
  let fs := map (logical_sf 0%R t) vss in
  length vt = total_states fs ->
  (T = 0%R -> forall f u s s', f < length fs -> u < arity fs f -> s < 2 -> s' < 2 -> (neg_inf < read_msgs fs vt f u s - read_msgs fs vt f u s')%R) ->
  (T = 0%R -> forall f u s, f < length fs -> u < arity fs f -> s < snd (var_at fs f u) -> exists c, In c (choices fs f u s) /\ (neg_inf <= score fs no_pots (read_msgs fs vt) f c)%R) ->
  msg_eq_upto fs
    (read_msgs fs (pass_logical_fac_to_var_messages vt (lf_parents (relevant_state t) vss) (lf_children (relevant_state t) vss) (type_offset t) T))
    (read_msgs fs (pass_enum_fac_to_var_messages vt (sf_rows fs) (repeat 0%R (total_configs fs)) (total_configs fs) T)).
Proof.
  intros Ht Hok fs Hvt Hd Hc. destruct (logical_text t vss vt T Ht Hok Hvt Hd) as [H1 _].
  pose proof (logical_configs_okR t vss Ht Hok) as Hcfg. fold fs in Hcfg, H1.
  assert (Hp : forall f c, read_pots fs (repeat 0%R (total_configs fs)) f c = 0%R) by (intros; unfold read_pots; apply nth_repeat_R).
  eapply upto_trans; [exact H1|]. apply upto_sym, msg_eq_upto_refl.
  eapply msg_eq_trans; [apply enum_text; [exact Hcfg|exact Hvt|apply repeat_length|]|].
  - split; [|intros _ f u s s' Hf; lia]. intros f u s Hf Hu Hs. destruct (Req_EM_T T 0) as [E|E].
    + destruct (Hc E f u s Hf Hu Hs) as [c [H2 H3]]. exists c. split; [exact H2|]. intros _. unfold score in *. now rewrite Hp.
    + pose proof (logical_covered 0%R t vss Hok Ht (read_msgs fs vt) f u s Hf Hu Hs) as Cv. fold fs in Cv.
      destruct (choices fs f u s) as [|c l]; [contradiction|]. exists c. split; [now left|]. intros F. contradiction.
  - intros f u s _ _ _. now apply fac_to_var_pots0.
Qed.

(** ** Statements about compiled states *)
Lemma state_sizes junk (g : fgraph R) st : wf_groups (gr_groups g) -> compile_fg_state junk g = Ok st ->
  st_total_factor_num_states st = total_states (graph_factors 0%R (gr_groups g)) /\
  total_configs (enum_factors (gr_groups g)) <= length (st_log_potentials st).
Proof.
  intros Hwf Hc. destruct (compiled_edges _ _ _ Hwf Hc) as [_ [_ [_ K4]]]. rewrite K4. unfold total_states. rewrite (graph_edges (gr_groups g)).
  split; [reflexivity|].
  destruct (C18_state_lemma junk g _ Hwf Hc) as [_ [_ [_ [_ [NV [NL _]]]]]]. rewrite NL.
  rewrite <- (enum_pots_total (gr_groups g) Hwf).
  destruct (compile_fg_state_inv _ _ _ Hc) as [w [_ [Est _]]]. rewrite Est. cbn [mk_fg_state st_pots_range].
  destruct (compute_offsets_spec (gr_groups g)) as [_ [R2 _]]. rewrite (R2 TEnum). cbn [pt_get type_start fst snd]. lia.
Qed.

Section Statements.
  Context (junk : nat -> Z) (g : fgraph R) (st : fg_state R) (lp vt : list R).
  Let fs := graph_factors 0%R (gr_groups g).
  Let ne := length (enum_factors (gr_groups g)).
  Let pots := graph_pots (gr_groups g) lp.
  Let v := read_msgs fs vt.
  Hypothesis Hwf : wf_groups (gr_groups g).
  Hypothesis Hst : compile_fg_state junk g = Ok st.
  Hypothesis Hvt : length vt = st_total_factor_num_states st.
  Hypothesis Hlp : length lp = length (st_log_potentials st).

  Lemma sizes : length vt = total_states fs /\ total_configs (enum_factors (gr_groups g)) <= length lp.
  Proof. destruct (state_sizes junk g st Hwf Hst) as [E1 E2]. rewrite Hvt, Hlp. auto. Qed.
  Lemma C24_lemma f u s : f < ne -> u < arity fs f -> s < snd (var_at fs f u) ->
    read_msgs fs (pass_fac_to_var_messages st 0%R lp vt) f u s = fac_to_var_floor fs pots v f u s.
  Proof. destruct sizes as [S1 S2]. intros Hf Hu Hs. now apply (graph_enum_max (gr_groups g) Hwf junk g st eq_refl Hst 0%R lp vt S1 S2). Qed.
  Lemma C24_textbook_lemma f u s : f < ne -> u < arity fs f -> s < snd (var_at fs f u) ->
    (exists c, In c (choices fs f u s) /\ (neg_inf <= score fs pots v f c)%R) ->
    read_msgs fs (pass_fac_to_var_messages st 0%R lp vt) f u s = fac_to_var_max fs pots v f u s.
  Proof.
    intros Hf Hu Hs Hc. rewrite C24_lemma by assumption. apply floor_max; [|exact Hu|exact Hc].
    unfold fs, graph_factors. rewrite app_length. fold ne. lia.
  Qed.
  Lemma C24_none_lemma f u s : f < ne -> u < arity fs f -> s < snd (var_at fs f u) -> choices fs f u s = [] ->
    read_msgs fs (pass_fac_to_var_messages st 0%R lp vt) f u s = (neg_inf - v f u s)%R.
  Proof. intros Hf Hu Hs Hc. rewrite C24_lemma by assumption. now apply floor_none. Qed.
  Lemma C25_lemma T f u s : T <> 0%R -> f < ne -> u < arity fs f -> s < snd (var_at fs f u) -> choices fs f u s <> [] ->
    read_msgs fs (pass_fac_to_var_messages st T lp vt) f u s = fac_to_var_soft fs pots T v f u s.
  Proof. destruct sizes as [S1 S2]. intros HT Hf Hu Hs Hc. now apply (graph_enum_soft (gr_groups g) Hwf junk g st eq_refl Hst T lp vt S1 S2). Qed.
  Lemma C25_one_lemma f u s : f < ne -> u < arity fs f -> s < snd (var_at fs f u) -> choices fs f u s <> [] ->
    read_msgs fs (pass_fac_to_var_messages st 1%R lp vt) f u s = ln (rsum (map (fun c => exp (score_but fs pots v f c u)) (choices fs f u s))).
  Proof.
    intros Hf Hu Hs Hc. rewrite C25_lemma by (auto; lra). unfold fac_to_var_soft. rewrite Rmult_1_l. f_equal. apply rsum_ext. intros c _. f_equal. field.
  Qed.
  Lemma C26_lemma :
    (forall f u s s', ne <= f < length fs -> u < arity fs f -> s < snd (var_at fs f u) -> s' < snd (var_at fs f u) -> (neg_inf < v f u s - v f u s')%R) ->
    forall f u, ne <= f < length fs -> u < arity fs f -> exists k, forall s, s < snd (var_at fs f u) ->
      read_msgs fs (pass_fac_to_var_messages st 0%R lp vt) f u s = (fac_to_var_max fs pots v f u s + k)%R.
  Proof.
    destruct sizes as [S1 S2]. intros Hd f u Hf Hu.
    destruct (graph_logical (gr_groups g) Hwf junk g st eq_refl Hst 0%R lp vt S1 S2 (fun _ => Hd) f u Hf Hu) as [k Hk]. exists k. intros s Hs.
    etransitivity; [exact (Hk s Hs)|]. unfold fac_to_var. destruct (Req_EM_T 0 0); [reflexivity|contradiction].
  Qed.
  Lemma C27_lemma T : T <> 0%R ->
    forall f u, ne <= f < length fs -> u < arity fs f -> exists k, forall s, s < snd (var_at fs f u) ->
      read_msgs fs (pass_fac_to_var_messages st T lp vt) f u s = (fac_to_var_soft fs pots T v f u s + k)%R.
  Proof.
    destruct sizes as [S1 S2]. intros HT f u Hf Hu.
    destruct (graph_logical (gr_groups g) Hwf junk g st eq_refl Hst T lp vt S1 S2 ltac:(intros E; contradiction) f u Hf Hu) as [k Hk]. exists k. intros s Hs.
    etransitivity; [exact (Hk s Hs)|]. unfold fac_to_var. destruct (Req_EM_T T 0); [contradiction|reflexivity].
  Qed.
  Lemma C41_lemma T f u s : (0 < T)%R -> f < ne -> u < arity fs f -> s < snd (var_at fs f u) ->
    (exists c, In c (choices fs f u s) /\ (neg_inf <= score fs pots v f c)%R) ->
    let low := read_msgs fs (pass_fac_to_var_messages st 0%R lp vt) f u s in
    (low <= read_msgs fs (pass_fac_to_var_messages st T lp vt) f u s <= low + T * ln (INR (length (sf_configs (factor_at fs f)))))%R.
  Proof.
    intros HT Hf Hu Hs Hc low. unfold low. rewrite C24_textbook_lemma by assumption.
    assert (Hne : choices fs f u s <> []) by (destruct Hc as [c [Hc _]]; intros E; now rewrite E in Hc).
    rewrite C25_lemma by (auto; lra). destruct (soft_max fs pots v f u s T HT Hne) as [[B1 B2] B3]. split; [exact B1|].
    eapply Rle_trans; [exact B2|]. apply Rplus_le_compat_l. apply Rmult_le_compat_l; [lra|exact B3].
  Qed.
End Statements.

Lemma C23_lemma vgs (g : fgraph R) T (c : bp_ctx R) a : groups_ok vgs -> reachable vgs g -> wf_groups (gr_groups g) -> bp_of g T c -> arrays_of c a ->
  let fs := graph_factors 0%R (gr_groups g) in
  msg_eq fs (read_msgs fs (pass_var_to_fac_messages (ba_ftov_msgs a) (ba_evidence a) (bc_var_states_for_edges c)))
    (var_to_fac fs (read_ev (gr_vars_to_starts g) (ba_evidence a)) (read_msgs fs (ba_ftov_msgs a))).
Proof.
  intros Hok Hr Hwf Hbp Ha fs. destruct (ctx_fields vgs g T c Hok Hr Hwf Hbp) as [_ [_ [_ [F4 _]]]].
  destruct (arrays_lengths vgs g T c Hok Hr Hwf Hbp a Ha) as [_ [L2 L3]]. rewrite F4.
  apply (var_to_fac_read fs _ (gr_num_var_states g)); [now apply (graph_layout vgs g T c Hok Hr Hwf Hbp)|exact L2|lia].
Qed.

Lemma C28_normal_lemma t vss (vt : list R) T : t <> TEnum -> logical_ok vss ->
  let fs := map (logical_sf 0%R t) vss in
  length vt = total_states fs ->
  (T = 0%R -> forall f u s s', f < length fs -> u < arity fs f -> s < 2 -> s' < 2 -> (neg_inf < read_msgs fs vt f u s - read_msgs fs vt f u s')%R) ->
  (T = 0%R -> forall f u s, f < length fs -> u < arity fs f -> s < snd (var_at fs f u) -> exists c, In c (choices fs f u s) /\ (neg_inf <= score fs no_pots (read_msgs fs vt) f c)%R) ->
  msg_eq fs
    (normal fs (read_msgs fs (pass_logical_fac_to_var_messages vt (lf_parents (relevant_state t) vss) (lf_children (relevant_state t) vss) (type_offset t) T)))
    (normal fs (read_msgs fs (pass_enum_fac_to_var_messages vt (sf_rows fs) (repeat 0%R (total_configs fs)) (total_configs fs) T))).
Proof.
  intros Ht Hok fs Hvt Hd Hc. apply normal_upto; [|now apply C28_lemma]. intros f u Hf Hu.
  unfold fs in *. rewrite map_length in Hf. rewrite (states_logical 0%R t vss Hok f u Hf Hu). lia.
Qed.
Lemma C28_both_lemma t vss (vt : list R) T : t <> TEnum -> logical_ok vss ->
  let fs := map (logical_sf 0%R t) vss in
  let v := read_msgs fs vt in
  length vt = total_states fs ->
  (T = 0%R -> forall f u s s', f < length fs -> u < arity fs f -> s < 2 -> s' < 2 -> (neg_inf < v f u s - v f u s')%R) ->
  (T = 0%R -> forall f u s, f < length fs -> u < arity fs f -> s < snd (var_at fs f u) -> exists c, In c (choices fs f u s) /\ (neg_inf <= score fs no_pots v f c)%R) ->
  let logical := pass_logical_fac_to_var_messages vt (lf_parents (relevant_state t) vss) (lf_children (relevant_state t) vss) (type_offset t) T in
  let enumerated := pass_enum_fac_to_var_messages vt (sf_rows fs) (repeat 0%R (total_configs fs)) (total_configs fs) T in
  msg_eq_upto fs (read_msgs fs logical) (read_msgs fs enumerated) /\
  msg_eq fs (normal fs (read_msgs fs logical)) (normal fs (read_msgs fs enumerated)).
Proof. intros Ht Hok fs v Hvt Hd Hc logical enumerated. split; [now apply C28_lemma|now apply C28_normal_lemma]. Qed.
Lemma C26_factors_lemma t vss (vt : list R) : t <> TEnum -> logical_ok vss ->
  let fs := map (logical_sf 0%R t) vss in
  length vt = total_states fs ->
  (forall f u s s', f < length fs -> u < arity fs f -> s < 2 -> s' < 2 -> (neg_inf < read_msgs fs vt f u s - read_msgs fs vt f u s')%R) ->
  msg_eq_upto fs (read_msgs fs (pass_logical_fac_to_var_messages vt (lf_parents (relevant_state t) vss) (lf_children (relevant_state t) vss) (type_offset t) 0%R))
    (fac_to_var_max fs no_pots (read_msgs fs vt)).
Proof.
  intros Ht Hok fs Hvt Hd. destruct (logical_text t vss vt 0%R Ht Hok Hvt (fun _ => Hd)) as [H _]. fold fs in H.
  unfold fac_to_var in H. destruct (Req_EM_T 0 0); [exact H|contradiction].
Qed.
Lemma C27_factors_lemma t vss (vt : list R) T : t <> TEnum -> logical_ok vss -> T <> 0%R ->
  let fs := map (logical_sf 0%R t) vss in
  length vt = total_states fs ->
  msg_eq_upto fs (read_msgs fs (pass_logical_fac_to_var_messages vt (lf_parents (relevant_state t) vss) (lf_children (relevant_state t) vss) (type_offset t) T))
    (fac_to_var_soft fs no_pots T (read_msgs fs vt)).
Proof. intros Ht Hok HT fs Hvt. now apply logical_soft_lemma. Qed.
