(** * One update splits by factor type, in any arithmetic on real numbers. *)
From Verif Require Import NumPy Lists FGraph BPState BP SpecFGraph SpecFactor SpecWiring SpecState SpecBP SpecText.
From Verif Require Import LemFGraph LemWiring LemGraph LemState LemNum LemNorm LemVtoF LemEnum LemLogCode LemLogical LemLogBP LemText.
From Coq Require Import Reals Lra Lia.
Local Open Scope nat_scope.

Lemma pass_enum_length_N (N : Num R) (vt lp : list R) rows n T : length (@pass_enum_fac_to_var_messages R N vt rows lp n T) = length vt.
Proof.
  unfold pass_enum_fac_to_var_messages. destruct (neqb T n0); unfold vsub, vadd; rewrite ?map2_length, ?map_length, ?scatter_length, ?repeat_length; lia.
Qed.
Lemma pass_logical_length_N (N : Num R) (vt : list R) ps cs o T : length (@pass_logical_fac_to_var_messages R N vt ps cs o T) = length vt.
Proof. unfold pass_logical_fac_to_var_messages, scatter_set. now rewrite !scatter_length, repeat_length. Qed.

Section Split.
  Context (N : Num R).
  Context (G : per_type (list (fgroup R))).
  Hypothesis Hwf : wf_groups G.
  Let fsE := enum_factors G.
  Let vO := logical_factors TOr G.
  Let vA := logical_factors TAnd G.
  Let fsO := map (logical_sf 0%R TOr) vO.
  Let fsA := map (logical_sf 0%R TAnd) vA.
  Context (junk : nat -> Z) (g : fgraph R) (st : fg_state R).
  Hypothesis HG : gr_groups g = G.
  Hypothesis Hst : compile_fg_state junk g = Ok st.

  (** The update splits by factor type. *)
  Lemma pass_split_N T lp vE vO' vA' : length vE = total_states fsE -> length vO' = total_states fsO -> length vA' = total_states fsA ->
    @pass_fac_to_var_messages R N st T lp (vE ++ vO' ++ vA')
    = @pass_enum_fac_to_var_messages R N vE (sf_rows fsE) (slice lp 0 (total_configs fsE)) (total_configs fsE) T
      ++ @pass_logical_fac_to_var_messages R N vO' (lf_parents 0 vO) (lf_children 0 vO) 1 T
      ++ @pass_logical_fac_to_var_messages R N vA' (lf_parents (match vA with [] => 0 | _ => 1 end) vA) (lf_children (match vA with [] => 0 | _ => 1 end) vA)
           (match vA with [] => 1 | _ => -1 end)%Z T.
  Proof.
    intros LE LO LA. pose proof (C18_state_lemma junk g st) as C18. rewrite HG in C18. specialize (C18 Hwf Hst). cbv zeta in C18.
    destruct C18 as [_ [_ [_ [_ [NV _]]]]].
    destruct (compile_fg_state_inv _ _ _ Hst) as [w [Hw [Est _]]]. rewrite HG in *.
    apply compile_wirings_iff in Hw; [|exact Hwf]. destruct Hw as [_ [_ [_ [_ Ew]]]].
    destruct (compute_offsets_spec G) as [R1 [R2 _]].
    assert (M : forall t, pt_get t (st_msgs_range st) = (type_start group_states t G, type_start group_states t G + total group_states (pt_get t G))).
    { intros t. rewrite Est. cbn [mk_fg_state st_msgs_range]. rewrite ?HG. apply R1. }
    assert (P : forall t, pt_get t (st_pots_range st) = (type_start group_pots t G, type_start group_pots t G + total group_pots (pt_get t G))).
    { intros t. rewrite Est. cbn [mk_fg_state st_pots_range]. rewrite ?HG. apply R2. }
    pose proof (type_states G TEnum) as SE. pose proof (type_states G TOr) as SO. pose proof (type_states G TAnd) as SA. fold fsE vO vA fsO fsA in SE, SO, SA. cbn [pt_get] in SE, SO, SA.
    pose proof (enum_pots_total G Hwf) as PE. fold fsE in PE.
    unfold pass_fac_to_var_messages.
    pose proof (M TEnum) as ME. pose proof (M TOr) as MO. pose proof (M TAnd) as MA. pose proof (P TEnum) as PE'.
    cbn [pt_get type_start Nat.add] in ME, MO, MA, PE', NV. rewrite ME, MO, MA, PE'. rewrite PE' in NV. cbn [fst snd] in NV |- *.
    rewrite NV, PE, Nat.sub_0_r, SE, SO, SA.
    assert (Ww : st_wiring st = w) by (rewrite Est; reflexivity). rewrite Ww, Ew. cbn [w_enum w_or w_and ew_ideal ew_factor_configs_edge_states].
    destruct (lw_type_fields (gr_vars_to_starts g) TOr (logical_factors TOr G)) as [_ [_ [O1 [O2 O3]]]]. rewrite O1, O2, O3.
    assert (AA : lw_parents_edge_states (lw_type (gr_vars_to_starts g) TAnd (logical_factors TAnd G)) = lf_parents (match vA with [] => 0 | _ => 1 end) vA /\
      lw_children_edge_states (lw_type (gr_vars_to_starts g) TAnd (logical_factors TAnd G)) = lf_children (match vA with [] => 0 | _ => 1 end) vA /\
      lw_edge_states_offset (lw_type (gr_vars_to_starts g) TAnd (logical_factors TAnd G)) = (match vA with [] => 1 | _ => -1 end)%Z).
    { unfold vA. destruct (logical_factors TAnd G); repeat split; reflexivity. }
    destruct AA as [-> [-> ->]]. cbn [relevant_state type_offset].
    replace (match logical_factors TOr G with [] => 1%Z | _ => 1%Z end) with 1%Z by (destruct (logical_factors TOr G); reflexivity).
    assert (S1 : slice (vE ++ vO' ++ vA') 0 (total_states fsE) = vE).
    { rewrite <- LE. unfold slice. cbn [skipn]. rewrite Nat.sub_0_r, firstn_app, Nat.sub_diag, firstn_all. cbn [firstn]. apply app_nil_r. }
    assert (S2 : slice (vE ++ vO' ++ vA') (total_states fsE) (total_states fsE + total_states fsO) = vO').
    { rewrite <- LE, <- LO. apply slice_app_mid. }
    assert (S3 : slice (vE ++ vO' ++ vA') (total_states fsE + total_states fsO) (total_states fsE + total_states fsO + total_states fsA) = vA').
    { rewrite <- LE, <- LO, <- LA. rewrite app_assoc, <- app_length. rewrite <- (app_nil_r vA') at 1. apply slice_app_mid. }
    rewrite S1, S2, S3. rewrite !app_length. rewrite !repeat_app.
    set (NE := @pass_enum_fac_to_var_messages R N _ _ _ _ _).
    set (NO := @pass_logical_fac_to_var_messages R N vO' _ _ _ _). set (NA := @pass_logical_fac_to_var_messages R N vA' _ _ _ _).
    assert (LNE : length NE = length vE) by apply pass_enum_length_N.
    assert (LNO : length NO = length vO') by apply pass_logical_length_N.
    assert (LNA : length NA = length vA') by apply pass_logical_length_N.
    change (blit 0 NE (repeat n0 (length vE) ++ repeat n0 (length vO') ++ repeat n0 (length vA')))
      with (blit (length (@nil R)) NE ([] ++ repeat n0 (length vE) ++ repeat n0 (length vO') ++ repeat n0 (length vA'))).
    rewrite blit_mid by (now rewrite repeat_length). cbn [app].
    replace (total_states fsE) with (length NE) by congruence. rewrite blit_mid by (now rewrite repeat_length).
    replace (total_states fsO) with (length NO) by congruence. rewrite <- app_length.
    rewrite app_assoc. rewrite <- (app_nil_r (repeat n0 (length vA'))). rewrite blit_mid by (now rewrite repeat_length).
    now rewrite app_nil_r, <- app_assoc.
  Qed.
End Split.
