(** * Everything a client can obtain fits the graph (C69). *)
From Verif Require Import NumPy Lists FGraph BPState BP SpecFGraph SpecFactor SpecWiring SpecState SpecBP SpecText SpecBeliefs SpecClient.
From Verif Require Import LemFGraph LemWiring LemGraph LemState LemEvidence LemNum LemNorm LemRun LemBeliefs.
From Coq Require Import Reals Lia.
Local Open Scope nat_scope.

Section Lengths.
  Context {A : Type} `{Num A}.
  Lemma normalize_len (msgs : list A) lens m : length (normalize_and_clip_msgs msgs lens m) = length msgs.
  Proof. unfold normalize_and_clip_msgs, vsub. rewrite map_length, map2_length, jnp_repeat_length. lia. Qed.
  Lemma bp_step_len (c : bp_ctx A) lp ev d msgs : length (bc_var_states_for_edges c) = length msgs -> length (bp_step c lp ev d msgs) = length msgs.
  Proof.
    intros E. unfold bp_step. cbv zeta. rewrite normalize_len. unfold vadd, vsub. rewrite map2_length, map_length, map2_length.
    unfold pass_fac_to_var_messages. rewrite !blit_length, repeat_length. unfold pass_var_to_fac_messages, vsub. rewrite map2_length, gather_length. lia.
  Qed.
  Lemma run_bp_len (c : bp_ctx A) a d n : length (bc_var_states_for_edges c) = length (ba_ftov_msgs a) ->
    length (ba_ftov_msgs (run_bp c a n d)) = length (ba_ftov_msgs a).
  Proof.
    intros E. unfold run_bp. cbn [ba_ftov_msgs]. induction n as [|n IH]; cbn [Nat.iter nat_rect]; [apply normalize_len|].
    rewrite bp_step_len; [exact IH|]. rewrite E. symmetry. exact IH.
  Qed.
  Lemma update_len st (lp msgs ev : list A) :
    (forall us lp', update_log_potentials st lp us = Ok lp' -> length lp' = length lp) /\
    (forall us ms', update_ftov_msgs st msgs us = Ok ms' -> length ms' = length msgs) /\
    (forall us ev', update_evidence st ev us = Ok ev' -> length ev' = length ev).
  Proof.
    set (so := (0, st)).
    set (bs := {| bs_log_potentials := {| c_state := so; c_value := lp |}; bs_ftov_msgs := {| c_state := so; c_value := msgs |};
                  bs_evidence := {| c_state := so; c_value := ev |} |}).
    set (c := {| bc_state := bs; bc_temperature := n0; bc_edges_num_states := []; bc_max_msg_size := 0; bc_var_states_for_edges := [] |}).
    set (a := {| ba_log_potentials := lp; ba_ftov_msgs := msgs; ba_evidence := ev |}).
    split; [|split]; intros us x E.
    - destruct (C38_update_lemma c (Some a) (Some us) None None {| ba_log_potentials := x; ba_ftov_msgs := msgs; ba_evidence := ev |}) as [U L].
      cbv zeta in U, L. apply L, U. now split.
    - destruct (C38_update_lemma c (Some a) None (Some us) None {| ba_log_potentials := lp; ba_ftov_msgs := x; ba_evidence := ev |}) as [U L].
      cbv zeta in U, L. apply L, U. now split.
    - destruct (C38_update_lemma c (Some a) None None (Some us) {| ba_log_potentials := lp; ba_ftov_msgs := msgs; ba_evidence := x |}) as [U L].
      cbv zeta in U, L. apply L, U. now split.
  Qed.
End Lengths.

Section Obtained.
  Context {A : Type} `{Num A} (junk : nat -> Z) (g : fgraph A) (k : nat) (st : fg_state A).
  Hypothesis Hwf : wf_groups (gr_groups g).
  Hypothesis Hc : compile_fg_state junk g = Ok st.
  Let so : state_obj A := (k, st).

  Definition sizes (lp ms ev : list A) : Prop :=
    length lp = length (st_log_potentials st) /\ length ms = st_total_factor_num_states st /\ length ev = st_num_var_states st.
  Definition good_state (bs : bp_state A) : Prop :=
    c_state (bs_log_potentials bs) = so /\ c_state (bs_ftov_msgs bs) = so /\ c_state (bs_evidence bs) = so /\
    sizes (c_value (bs_log_potentials bs)) (c_value (bs_ftov_msgs bs)) (c_value (bs_evidence bs)).
  Definition good_arrays (a : bp_arrays A) : Prop := sizes (ba_log_potentials a) (ba_ftov_msgs a) (ba_evidence a).
  Definition good (o : object A) : Prop := match o with OState bs => good_state bs | OArrays a => good_arrays a end.

  Lemma vec_shape (a : ndarray A) n : wf_arr a -> shape_eqb (shape a) [n] = true -> length (data a) = n.
  Proof. intros Hw E. apply shape_eqb_eq in E. unfold wf_arr in Hw. rewrite Hw, E. cbn. lia. Qed.

  Lemma obtained_good o : obtained so o -> good o.
  Proof.
    induction 1 as [vl vm ve lp ms ev bs Fl Fm Fe El Em Ee Eb|bs h d lp Hb [I1 [I2 [I3 [I4 [I5 I6]]]]] E|bs v d ms Hb [I1 [I2 [I3 [I4 [I5 I6]]]]] E
      |bs ky d ev Hb [I1 [I2 [I3 [I4 [I5 I6]]]]] E|bs T c lu mu eu a Hb [I1 [I2 [I3 [I4 [I5 I6]]]]] EB E
      |bs T c a lu mu eu a' Hb [I1 [I2 [I3 _]]] EB Ha [I4 [I5 I6]] E|bs T c a n d Hb [I1 _] EB Ha [I4 [I5 I6]]|bs T c a bs' Hb [I1 _] EB Ha [I4 [I5 I6]] E]; cbn [good].
    - destruct (C44_bpstate_lemma lp ms ev) as [_ [B _]]. destruct (B bs Eb) as [B1 [B2 B3]]. unfold good_state. rewrite B1, B2, B3. clear Eb B B1 B2 B3.
      assert (L : c_state lp = so /\ length (c_value lp) = length (st_log_potentials st)).
      { unfold LogPotentials in El. destruct vl as [v|]; [|injection El as <-; now split]. destruct (shape_eqb _ _) eqn:S; [|discriminate]. injection El as <-. split; [reflexivity|]. now apply vec_shape. }
      assert (M : c_state ms = so /\ length (c_value ms) = st_total_factor_num_states st).
      { unfold FToVMessages in Em. destruct vm as [v|]; [|injection Em as <-; split; [reflexivity|apply repeat_length]]. destruct (shape_eqb _ _) eqn:S; [|discriminate]. injection Em as <-. split; [reflexivity|]. now apply vec_shape. }
      assert (V : c_state ev = so /\ length (c_value ev) = st_num_var_states st).
      { unfold Evidence in Ee. destruct ve as [v|]; [|injection Ee as <-; split; [reflexivity|apply repeat_length]]. destruct (shape_eqb _ _) eqn:S; [|discriminate]. injection Ee as <-. split; [reflexivity|]. now apply vec_shape. }
      unfold sizes. tauto.
    - unfold LogPotentials_setitem in E. destruct (update_log_potentials _ _ _) as [x|] eqn:U; [|discriminate]. injection E as <-.
      apply (proj1 (update_len _ _ [] [])) in U. unfold good_state, sizes, set_value. cbn [bs_log_potentials bs_ftov_msgs bs_evidence c_state c_value]. rewrite U. tauto.
    - unfold FToVMessages_setitem in E. destruct (update_ftov_msgs _ _ _) as [x|] eqn:U; [|discriminate]. injection E as <-.
      apply (proj1 (proj2 (update_len _ [] _ []))) in U. unfold good_state, sizes, set_value. cbn [bs_log_potentials bs_ftov_msgs bs_evidence c_state c_value]. rewrite U. tauto.
    - unfold Evidence_setitem in E. destruct (update_evidence _ _ _) as [x|] eqn:U; [|discriminate]. injection E as <-.
      apply (proj2 (proj2 (update_len _ [] [] _))) in U. unfold good_state, sizes, set_value. cbn [bs_log_potentials bs_ftov_msgs bs_evidence c_state c_value]. rewrite U. tauto.
    - destruct (BP_fields _ _ _ EB) as [Ebs _]. destruct (C38_update_lemma c None lu mu eu a) as [_ L]. cbv zeta in L. specialize (L E). cbn [ba_log_potentials ba_ftov_msgs ba_evidence] in L.
      rewrite Ebs in L. unfold good_arrays, sizes. intuition congruence.
    - destruct (C38_update_lemma c (Some a) lu mu eu a') as [_ L]. cbv zeta in L. specialize (L E). unfold good_arrays, sizes. intuition congruence.
    - unfold good_arrays, sizes. split; [exact I4|]. split; [|exact I6]. rewrite run_bp_len; [exact I5|].
      destruct (BP_fields _ _ _ EB) as [_ [_ [_ [_ V]]]]. rewrite V, I5. unfold bs_fg_state. rewrite I1. cbn [snd so].
      destruct (compiled_edges _ _ _ Hwf Hc) as [_ [-> [_ ->]]]. apply edge_var_states_length.
    - destruct (BP_fields _ _ _ EB) as [Ebs _]. destruct (C38_to_state_lemma c a) as [S _]. cbv zeta in S. apply S in E. destruct E as [_ ->].
      unfold good_state, sizes. cbn [bs_log_potentials bs_ftov_msgs bs_evidence c_state c_value]. rewrite Ebs, I1. tauto.
  Qed.

  Lemma C69_ready_lemma T bs a : obtained so (OState bs) -> obtained so (OArrays a) ->
    bs_fg_state bs = st /\
    forall c, BP bs T = Ok c -> bp_of g T c /\ arrays_of c a /\ exists bs', to_bp_state c a = Ok bs'.
  Proof.
    intros Hb Ha. apply obtained_good in Hb, Ha. cbn [good] in Hb, Ha. destruct Hb as [I1 [I2 [I3 I4]]]. split; [unfold bs_fg_state; now rewrite I1|].
    intros c EB. destruct (BP_fields _ _ _ EB) as [Ebs _].
    split; [exists junk, bs; split; [unfold bs_fg_state; now rewrite I1|exact EB]|]. split; [unfold arrays_of, bs_fg_state; rewrite Ebs, I1; exact Ha|].
    destruct (C38_to_state_lemma c a) as [S _]. cbv zeta in S. eexists. apply S. split; [|reflexivity]. rewrite Ebs, I1. exact Ha.
  Qed.
End Obtained.

(** ** Which graphs compile, and where inference is available *)
Lemma compile_wirings_unknown {A} junk starts0 (groups : per_type (list (fgroup A))) :
  wf_groups groups -> ~ known_groups starts0 groups -> compile_wirings junk starts0 groups = Raise KeyError.
Proof.
  intros Hwf Hn.
  assert (RE : forall g e, In g (pt_enum groups) -> fg_compile_enum junk g starts0 = Raise e -> e = KeyError).
  { intros g e Hg E. pose proof (wf_enum _ Hwf) as HF. rewrite Forall_forall in HF. destruct (fg_compile_enum_spec junk g starts0 (HF g Hg)) as [S1 S2].
    destruct (known_dec starts0 (concat (fg_vars g))) as [K|K]; [rewrite (S1 K) in E; discriminate|rewrite (S2 K) in E; congruence]. }
  assert (RL : forall t g e, t <> TEnum -> In g (pt_get t groups) -> fg_compile_logical junk g starts0 = Raise e -> e = KeyError).
  { intros t g e Ht Hg E. destruct (wf_logical _ t Hwf Ht g Hg) as [_ [_ Hl]]. destruct (fg_compile_logical_spec junk g starts0) as [S1 [_ S3]].
    - intros vs Hvs. destruct (Hl vs Hvs). lia.
    - destruct (known_dec starts0 (concat (fg_vars g))) as [K|K]; [rewrite S1 in E; [discriminate|exact K|intros vs Hvs; now destruct (Hl vs Hvs)]|rewrite (S3 K) in E; congruence]. }
  unfold compile_wirings.
  destruct (mapM _ (pt_enum groups)) as [es|e] eqn:E1; cbn [bind].
  2:{ destruct (mapM_raise _ _ _ E1) as [g [Hg Eg]]. now rewrite (RE g e Hg Eg). }
  destruct (mapM _ (pt_or groups)) as [os|e] eqn:E2; cbn [bind].
  2:{ destruct (mapM_raise _ _ _ E2) as [g [Hg Eg]]. rewrite (RL TOr g e); [reflexivity|discriminate|exact Hg|exact Eg]. }
  destruct (mapM _ (pt_and groups)) as [ds|e] eqn:E3; cbn [bind].
  2:{ destruct (mapM_raise _ _ _ E3) as [g [Hg Eg]]. rewrite (RL TAnd g e); [reflexivity|discriminate|exact Hg|exact Eg]. }
  exfalso. apply Hn. intros g Hg. apply In_all_groups in Hg. destruct Hg as [t Hg].
  destruct (known_dec starts0 (concat (fg_vars g))) as [K|K]; [exact K|]. exfalso. destruct t; cbn [pt_get] in Hg.
  - destruct (mapM_Ok_In _ _ _ g E1 Hg) as [u Hu]. pose proof (wf_enum _ Hwf) as HF. rewrite Forall_forall in HF.
    destruct (fg_compile_enum_spec junk g starts0 (HF g Hg)) as [_ S2]. rewrite (S2 K) in Hu. discriminate.
  - destruct (mapM_Ok_In _ _ _ g E2 Hg) as [u Hu]. destruct (fg_compile_logical_raw junk g starts0) as [_ S2]. rewrite (S2 K) in Hu. discriminate.
  - destruct (mapM_Ok_In _ _ _ g E3 Hg) as [u Hu]. destruct (fg_compile_logical_raw junk g starts0) as [_ S2]. rewrite (S2 K) in Hu. discriminate.
Qed.

Section Available.
  Context {A : Type} `{Num A} (vgs : list vgroup) (g : fgraph A).
  Hypothesis Hok : groups_ok vgs.
  Hypothesis Hr : reachable vgs g.
  Hypothesis Hwf : wf_groups (gr_groups g).
  Hypothesis Hl : gr_is_list g = true.

  Lemma known_vars : known_groups (gr_vars_to_starts g) (gr_groups g) <-> (forall x, In x (all_edges (gr_groups g)) -> In x (all_vars vgs)).
  Proof.
    destruct (C06_lemma vgs g Hok Hr) as [L1 [L2 _]]. unfold known_groups, known, all_edges. split.
    - intros K x Hx. apply in_concat in Hx. destruct Hx as [vs [H1 H2]]. apply in_concat in H1. destruct H1 as [vss [H3 H4]].
      apply in_map_iff in H3. destruct H3 as [h [<- Hh]]. destruct (K h Hh x) as [s Hs]; [apply in_concat; eauto|]. now apply (L2 x s).
    - intros K h Hh x Hx. assert (Hin : In x (all_vars vgs)).
      { apply K. apply in_concat in Hx. destruct Hx as [vs [H1 H2]]. apply in_concat. exists vs. split; [|exact H2]. apply in_concat. exists (fg_vars h). split; [now apply in_map|exact H1]. }
      apply In_nth_error in Hin. destruct Hin as [k Hk]. eexists. now apply (L1 k).
  Qed.
  Lemma C69_compiles_lemma junk :
    ((exists st, compile_fg_state junk g = Ok st) <-> compilable vgs (gr_groups g)) /\
    (~ (forall x, In x (all_edges (gr_groups g)) -> In x (all_vars vgs)) -> compile_fg_state junk g = Raise KeyError) /\
    ((forall x, In x (all_edges (gr_groups g)) -> In x (all_vars vgs)) -> ~ Forall has_rows (pt_enum (gr_groups g)) ->
       compile_fg_state junk g = Raise IndexError) /\
    ((forall x, In x (all_edges (gr_groups g)) -> In x (all_vars vgs)) -> Forall has_rows (pt_enum (gr_groups g)) ->
       ~ (all_but_last_single (map fg_vars (pt_or (gr_groups g))) /\ all_but_last_single (map fg_vars (pt_and (gr_groups g)))) ->
       compile_fg_state junk g = Raise ValueError).
  Proof.
    assert (U : compile_fg_state junk g = bind (compile_wirings junk (gr_vars_to_starts g) (gr_groups g))
              (fun w => Ok (mk_fg_state g (compute_offsets (gr_groups g)) (compile_log_potentials (gr_groups g)) w))).
    { unfold compile_fg_state. cbv zeta. rewrite Hl. reflexivity. }
    rewrite U. rewrite <- known_vars. split; [|split; [|split]].
    - unfold compilable. rewrite <- known_vars. split.
      + intros [st E]. destruct (compile_wirings _ _ _) as [w|] eqn:W; [|discriminate]. apply compile_wirings_iff in W; [|exact Hwf]. tauto.
      + intros [K [R1 [R2 R3]]]. destruct (compile_wirings_spec junk _ _ Hwf K) as [S _]. rewrite (S R1 R2 R3). cbn [bind]. eauto.
    - intros K. now rewrite compile_wirings_unknown.
    - intros K R1. destruct (compile_wirings_spec junk _ _ Hwf K) as [_ [S _]]. now rewrite (S R1).
    - intros K R1 R2. destruct (compile_wirings_spec junk _ _ Hwf K) as [_ [_ S]]. now rewrite (S R1 R2).
  Qed.

  Lemma edges_groups : Forall has_rows (pt_enum (gr_groups g)) -> (all_edges (gr_groups g) = [] <-> all_groups (gr_groups g) = []).
  Proof.
    intros HR. unfold all_edges. split; [|intros ->; reflexivity]. intros E. destruct (all_groups (gr_groups g)) as [|h r] eqn:G; [reflexivity|]. exfalso.
    assert (Hh : In h (all_groups (gr_groups g))) by (rewrite G; now left). apply In_all_groups in Hh. destruct Hh as [t Hh].
    assert (N : exists x, In x (concat (fg_vars h))).
    { destruct (Hwf t h Hh) as [Et [Hv Hne]]. destruct (fg_vars h) as [|vs vss] eqn:F; [congruence|].
      assert (Lp : 0 < length vs).
      { destruct t.
        - cbn [pt_get] in Hh. rewrite Forall_forall in HR. destruct (HR h Hh) as [_ [_ R2]]. pose proof (wf_enum _ Hwf) as HA. rewrite Forall_forall in HA.
          destruct (HA h Hh) as [nc [k [Es Hk]]]. rewrite Es in R2. cbn in R2. rewrite (Hk vs) by (rewrite F; now left). exact R2.
        - unfold valid_group in Hv. rewrite Et, F in Hv. destruct (Hv vs (or_introl eq_refl)). lia.
        - unfold valid_group in Hv. rewrite Et, F in Hv. destruct (Hv vs (or_introl eq_refl)). lia. }
      destruct vs as [|x vs]; [cbn in Lp; lia|]. exists x. now left. }
    destruct N as [x Hx]. apply in_concat in Hx. destruct Hx as [vs [H1 H2]].
    assert (In x (concat (concat (map fg_vars (h :: r))))); [|rewrite E in *; contradiction].
    apply in_concat. exists vs. split; [|exact H2]. apply in_concat. exists (fg_vars h). split; [now left|exact H1].
  Qed.

  Lemma C69_available_lemma junk st k bs T : compile_fg_state junk g = Ok st -> obtained (k, st) (OState bs) ->
    (all_groups (gr_groups g) = [] -> BP bs T = Raise ValueError) /\
    (all_groups (gr_groups g) <> [] -> exists c, BP bs T = Ok c /\ bc_state c = bs /\
       exists a, bp_init c None None None = Ok a /\ obtained (k, st) (OArrays a)).
  Proof.
    intros Hc Hb. pose proof (obtained_good junk g k st Hwf Hc _ Hb) as G. cbn [good] in G. destruct G as [I1 _].
    destruct (compiled_edges _ _ _ Hwf Hc) as [_ [_ [K3 _]]].
    assert (HR : Forall has_rows (pt_enum (gr_groups g))).
    { destruct (C69_compiles_lemma junk) as [[S _] _]. now destruct (S (ex_intro _ _ Hc)) as [_ [? _]]. }
    pose proof (edges_groups HR) as EG.
    assert (EB : bs_fg_state bs = st) by (unfold bs_fg_state; now rewrite I1).
    unfold BP. cbv zeta. rewrite EB, K3. split.
    - intros E. apply EG in E. now rewrite E.
    - intros E. destruct (map snd (all_edges (gr_groups g))) as [|n ns] eqn:M; [apply map_eq_nil, EG in M; contradiction|].
      eexists. split; [reflexivity|]. split; [reflexivity|]. eexists. split; [reflexivity|].
      eapply (ob_init _ bs T _ None None None); [exact Hb|unfold BP; cbv zeta; rewrite EB, K3; reflexivity|reflexivity].
  Qed.
  (** Inference can be set up exactly on compilable graphs with a factor. *)
  Lemma C69_exists_lemma T : (exists c, bp_of g T c) <-> compilable vgs (gr_groups g) /\ all_groups (gr_groups g) <> [].
  Proof.
    split.
    - intros [c [junk [bs [Hc HB]]]]. destruct (C69_compiles_lemma junk) as [[S _] _]. pose proof (S (ex_intro _ _ Hc)) as C. split; [exact C|].
      intros E. destruct C as [_ [HR _]]. apply (edges_groups HR) in E. destruct (compiled_edges _ _ _ Hwf Hc) as [_ [_ [K3 _]]].
      unfold BP in HB. cbv zeta in HB. rewrite K3, E in HB. discriminate.
    - intros [C E]. destruct (C69_compiles_lemma (fun _ => 0%Z)) as [[_ S] _]. destruct (S C) as [st Hc].
      assert (D : exists bs, default_bp_state (0, st) = Ok bs /\ obtained (0, st) (OState bs)).
      { eexists. split; [reflexivity|]. eapply (ob_new _ None None None); [exact I|exact I|exact I|reflexivity|reflexivity|reflexivity|reflexivity]. }
      destruct D as [bs [_ Hb]]. destruct (C69_available_lemma _ st 0 bs T Hc Hb) as [_ S2]. destruct (S2 E) as [c [HB [Ec _]]]. exists c.
      pose proof (obtained_good _ g 0 st Hwf Hc _ Hb) as G. cbn [good] in G. destruct G as [I1 _].
      exists (fun _ => 0%Z), bs. split; [unfold bs_fg_state; now rewrite I1|exact HB].
  Qed.
End Available.

Lemma C69_fits_lemma {A} `{Num A} junk (g : fgraph A) k st o :
  compile_fg_state junk g = Ok st -> wf_groups (gr_groups g) -> obtained (k, st) o ->
  match o with
  | OState bs => c_state (bs_log_potentials bs) = (k, st) /\ c_state (bs_ftov_msgs bs) = (k, st) /\ c_state (bs_evidence bs) = (k, st) /\
      length (c_value (bs_log_potentials bs)) = length (st_log_potentials st) /\
      length (c_value (bs_ftov_msgs bs)) = st_total_factor_num_states st /\
      length (c_value (bs_evidence bs)) = st_num_var_states st
  | OArrays a => length (ba_log_potentials a) = length (st_log_potentials st) /\
      length (ba_ftov_msgs a) = st_total_factor_num_states st /\ length (ba_evidence a) = st_num_var_states st
  end.
Proof. intros Hc Hwf Ho. exact (obtained_good junk g k st Hwf Hc o Ho). Qed.

Lemma C69_results_lemma vgs (g : fgraph R) junk k st T bs a c :
  groups_ok vgs -> reachable vgs g -> wf_groups (gr_groups g) -> compile_fg_state junk g = Ok st ->
  (forall gr n, In gr vgs -> In n (vg_num_states gr) -> 0 < n) -> (forall gr, In gr vgs -> one_state gr = false) ->
  obtained (k, st) (OState bs) -> obtained (k, st) (OArrays a) -> BP bs T = Ok c ->
  exists b r p, get_beliefs c a = Ok b /\ decode_map_states b = Ok r /\ get_marginals b = Ok p /\
    map fst b = vgs /\ map fst r = vgs /\ map fst p = vgs.
Proof.
  intros Hok Hr Hwf Hc Hpos Hone Hb Ha HB. destruct (C69_ready_lemma junk g k st Hwf Hc T bs a Hb Ha) as [_ S].
  destruct (S c HB) as [H1 [H2 _]].
  destruct (C33_lemma vgs g T c Hok Hr Hwf H1 a H2 Hpos) as [b [Eb [F1 _]]].
  destruct (C34_lemma vgs g T c Hok Hr Hwf H1 a H2 Hpos Hone) as [b2 [r [Eb2 [Er [F2 _]]]]].
  destruct (C35_lemma vgs g T c Hok Hr Hwf H1 a H2 Hpos Hone) as [b3 [p [Eb3 [Ep [F3 _]]]]].
  assert (b2 = b) by congruence. assert (b3 = b) by congruence. subst b2 b3. exists b, r, p. split; [exact Eb|]. split; [exact Er|]. split; [exact Ep|]. split; [exact F1|]. split; [exact F2|exact F3].
Qed.
