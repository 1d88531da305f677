(** * OR and AND factors when exponentials underflow: whole graphs (C67). *)
From Verif Require Import NumPy Lists VGroup FGraph BPState BP Rounded SpecVGroup SpecFGraph SpecFactor SpecWiring SpecState SpecBP SpecText SpecRounded SpecUnderflow.
From Verif Require Import LemFGraph LemWiring LemGraph LemState LemNum LemNorm LemVtoF LemEnum LemLogCode LemLogical LemLogBP LemText LemRun LemIter LemPass LemSplit LemRounded LemUnderflow.
From Coq Require Import Reals Lra Lia.
Local Open Scope nat_scope.

Section Graph.
  Context (W : Num R) (G : per_type (list (fgroup R))).
  Hypothesis Hwf : wf_groups G.
  Let fs := graph_factors 0%R G.
  Let fsE := enum_factors G.
  Let ne := length fsE.
  Let vO := logical_factors TOr G.
  Let vA := logical_factors TAnd G.
  Let fsO := map (logical_sf 0%R TOr) vO.
  Let fsA := map (logical_sf 0%R TAnd) vA.
  Context (junk : nat -> Z) (g : fgraph R) (st : fg_state R).
  Hypothesis HG : gr_groups g = G.
  Hypothesis Hst : compile_fg_state junk g = Ok st.
  Context (T : R) (lp vt : list R).
  Hypothesis Hvt : length vt = total_states fs.

  (** The messages of a logical factor of the graph are those of a list of such factors. *)
  Lemma logical_part f : ne <= f < length fs ->
    let t := logical_kind G f in
    let vss := logical_factors t G in
    let fs' := map (logical_sf 0%R t) vss in
    exists vt' f', t <> TEnum /\ logical_ok vss /\ length vt' = total_states fs' /\ f' < length vss /\ arity fs f = arity fs' f' /\
      (forall u s, u < arity fs f -> s < 2 -> read_msgs fs' vt' f' u s = read_msgs fs vt f u s) /\
      (forall u s, u < arity fs f -> s < 2 ->
        read_msgs fs (@pass_fac_to_var_messages R W st T lp vt) f u s
        = read_msgs fs' (@pass_logical_fac_to_var_messages R W vt' (lf_parents (relevant_state t) vss) (lf_children (relevant_state t) vss) (type_offset t) T) f' u s).
  Proof.
    intros Hf. cbv zeta.
    assert (Efs : fs = fsE ++ fsO ++ fsA) by (unfold fs; apply graph_fs).
    assert (Hvt' := Hvt). rewrite Efs in Hvt'. rewrite !total_states_app in Hvt'.
    set (vE := firstn (total_states fsE) vt). set (vO' := firstn (total_states fsO) (skipn (total_states fsE) vt)).
    set (vA' := skipn (total_states fsO) (skipn (total_states fsE) vt)).
    assert (Ev : vt = vE ++ vO' ++ vA') by (unfold vE, vO', vA'; now rewrite !firstn_skipn).
    assert (LE : length vE = total_states fsE) by (unfold vE; rewrite firstn_length; lia).
    assert (LO : length vO' = total_states fsO) by (unfold vO'; rewrite firstn_length, skipn_length; lia).
    assert (LA : length vA' = total_states fsA) by (unfold vA'; rewrite !skipn_length; lia).
    pose proof (pass_split_N W G Hwf junk g st HG Hst T lp vE vO' vA' LE LO LA) as Esp. rewrite <- Ev in Esp. fold fsE vO vA in Esp.
    set (NE := @pass_enum_fac_to_var_messages R W _ _ _ _ _) in Esp.
    set (NO := @pass_logical_fac_to_var_messages R W vO' _ _ _ _) in Esp. set (NA := @pass_logical_fac_to_var_messages R W vA' _ _ _ _) in Esp.
    assert (LNE : length NE = total_states fsE) by (unfold NE; now rewrite pass_enum_length_N).
    assert (LNO : length NO = total_states fsO) by (unfold NO; now rewrite pass_logical_length_N).
    rewrite Esp. clear Esp. rewrite Efs in Hf |- *.
    pose proof (logical_ok_type G Hwf TOr ltac:(discriminate)) as lokO.
    pose proof (logical_ok_type G Hwf TAnd ltac:(discriminate)) as lokA.
    assert (NfO : length fsO = length vO) by apply map_length. assert (NfA : length fsA = length vA) by apply map_length.
    rewrite !app_length in Hf. unfold logical_kind. fold fsE. fold ne. fold vO.
    destruct (Nat.ltb_spec f (ne + length vO)) as [Hl|Hl].
    - exists vO', (f - ne). replace f with (ne + (f - ne)) in * by lia. set (f1 := f - ne) in *. clearbody f1. unfold ne in *.
      replace (length fsE + f1 - length fsE) with f1 by lia.
      assert (Hfo : f1 < length fsO) by lia. fold vO. fold fsO.
      rewrite arity_app2, arity_app1 by exact Hfo.
      split; [discriminate|]. split; [exact lokO|]. split; [exact LO|]. split; [lia|]. split; [reflexivity|].
      assert (S2 : forall u, u < arity fsO f1 -> snd (var_at fsO f1 u) = 2) by (intros u Hu; apply (states_logical 0%R TOr vO lokO f1 u); [lia|exact Hu]).
      split; intros u s Hu Hs.
      + rewrite Ev, read_app2 by exact LE. symmetry. apply read_app1; [exact LO|exact Hfo|exact Hu|now rewrite S2].
      + rewrite read_app2 by exact LNE. apply read_app1; [exact LNO|exact Hfo|exact Hu|now rewrite S2].
    - exists vA', (f - ne - length vO). replace f with (ne + (length vO + (f - ne - length vO))) in * by lia. set (f2 := f - ne - length vO) in *. clearbody f2. unfold ne in *.
      replace (length fsE + (length vO + f2) - length fsE - length vO) with f2 by lia.
      assert (Hfa : f2 < length fsA) by lia. fold vA. fold fsA. rewrite <- NfO.
      rewrite !arity_app2.
      split; [discriminate|]. split; [exact lokA|]. split; [exact LA|]. split; [lia|]. split; [reflexivity|].
      assert (S2 : forall u, u < arity fsA f2 -> snd (var_at fsA f2 u) = 2) by (intros u Hu; apply (states_logical 0%R TAnd vA lokA f2 u); [lia|exact Hu]).
      assert (ENA : NA = @pass_logical_fac_to_var_messages R W vA' (lf_parents 1 vA) (lf_children 1 vA) (-1) T).
      { unfold NA. destruct vA as [|v0 vr] eqn:EvA; [cbn in Hfa; lia|reflexivity]. }
      split; intros u s Hu Hs.
      + rewrite Ev, read_app2 by exact LE. symmetry. apply read_app2. exact LO.
      + rewrite read_app2 by exact LNE. rewrite read_app2 by exact LNO. rewrite ENA. reflexivity.
  Qed.
End Graph.

Section Messages.
  Context (junk : nat -> Z) (g : fgraph R) (st : fg_state R) (lp vt : list R).
  Hypothesis Hwf : wf_groups (gr_groups g).
  Hypothesis Hst : compile_fg_state junk g = Ok st.
  Let fs := graph_factors 0%R (gr_groups g).
  Let ne := length (enum_factors (gr_groups g)).
  Hypothesis Hvt : length vt = total_states fs.
  Context (f : nat).
  Hypothesis Hf : ne <= f < length fs.
  Let t := logical_kind (gr_groups g) f.

  Lemma C67_child_rounded_lemma rnd ex lg U T : underflowing rnd ex lg U T ->
    (forall u, u < parents fs f -> (lean t (read_msgs fs vt) f u <= - (U * T))%R) ->
    forall s, s < 2 -> read_msgs fs (@pass_fac_to_var_messages R (RoundNum rnd ex lg) st T lp vt) f (parents fs f) s = 0%R.
  Proof.
    intros HU H s Hs.
    destruct (logical_part (RoundNum rnd ex lg) (gr_groups g) Hwf junk g st eq_refl Hst T lp vt Hvt f Hf) as [vt' [f' [Ht [Hok [Hvt' [Hf' [Ea [Ein Eout]]]]]]]].
    fold t in Ht, Hok, Hvt', Hf', Ea, Ein, Eout. fold fs in Ea, Ein, Eout. set (vss := logical_factors t (gr_groups g)) in *.
    pose proof (parents_k t vss vt' Hok Hvt' f' Hf') as Pk. unfold parents in Pk. rewrite <- Ea in Pk.
    pose proof (k_pos t vss Hok f' Hf') as K0. cbv beta in K0.
    unfold parents in *. rewrite Eout by (assumption || lia). rewrite Pk.
    apply (child_rounded t vss vt' Ht Hok Hvt' rnd ex lg U T HU f' s Hf' Hs).
    intros u Hu. unfold lean. rewrite !Ein; [apply H; lia|lia|destruct t; cbn; lia|lia|destruct t; cbn; lia].
  Qed.
  Lemma C67_parent_rounded_lemma rnd ex lg U T : underflowing rnd ex lg U T ->
    forall u, u < parents fs f -> 2 <= parents fs f ->
    (forall j, j < parents fs f -> j <> u -> (lean t (read_msgs fs vt) f j <= - (U * T))%R) ->
    (U * T <= lean t (read_msgs fs vt) f (parents fs f))%R ->
    lean t (read_msgs fs (@pass_fac_to_var_messages R (RoundNum rnd ex lg) st T lp vt)) f u = rnd (rnd (- T) * lg (rnd (1 / 2)))%R.
  Proof.
    intros HU u Hu H2 H Hc.
    destruct (logical_part (RoundNum rnd ex lg) (gr_groups g) Hwf junk g st eq_refl Hst T lp vt Hvt f Hf) as [vt' [f' [Ht [Hok [Hvt' [Hf' [Ea [Ein Eout]]]]]]]].
    fold t in Ht, Hok, Hvt', Hf', Ea, Ein, Eout. fold fs in Ea, Ein, Eout. set (vss := logical_factors t (gr_groups g)) in *.
    pose proof (parents_k t vss vt' Hok Hvt' f' Hf') as Pk. unfold parents in Pk. rewrite <- Ea in Pk.
    unfold parents in *.
    rewrite <- (parent_rounded t vss vt' Ht Hok Hvt' rnd ex lg U T HU f' u Hf'); try lia.
    - unfold lean. rewrite !Eout; [reflexivity|lia|destruct t; cbn; lia|lia|destruct t; cbn; lia].
    - intros j Hj Hne. unfold lean. rewrite !Ein; [apply H; lia|lia|destruct t; cbn; lia|lia|destruct t; cbn; lia].
    - unfold lean. rewrite <- Pk. rewrite !Ein; [exact Hc|lia|destruct t; cbn; lia|lia|destruct t; cbn; lia].
  Qed.
  Lemma C67_child_exact_lemma T b : (0 < T)%R -> (0 <= b)%R ->
    (forall u, u < parents fs f -> (lean t (read_msgs fs vt) f u <= - b)%R) ->
    (lean t (read_msgs fs (pass_fac_to_var_messages st T lp vt)) f (parents fs f) <= T * (INR (parents fs f) * ln 2) - b)%R.
  Proof.
    intros HT Hb H.
    destruct (logical_part RNum (gr_groups g) Hwf junk g st eq_refl Hst T lp vt Hvt f Hf) as [vt' [f' [Ht [Hok [Hvt' [Hf' [Ea [Ein Eout]]]]]]]].
    fold t in Ht, Hok, Hvt', Hf', Ea, Ein, Eout. fold fs in Ea, Ein, Eout. set (vss := logical_factors t (gr_groups g)) in *.
    pose proof (parents_k t vss vt' Hok Hvt' f' Hf') as Pk. unfold parents in Pk. rewrite <- Ea in Pk.
    pose proof (k_pos t vss Hok f' Hf') as K0. cbv beta in K0.
    unfold parents in *. rewrite Pk in *.
    eapply Rle_trans; [|apply (child_exact t vss vt' Ht Hok Hvt' T b f' HT Hb Hf')].
    - unfold lean. rewrite !Eout; [apply Rle_refl|lia|destruct t; cbn; lia|lia|destruct t; cbn; lia].
    - intros j Hj. unfold lean. rewrite !Ein; [apply H; lia|lia|destruct t; cbn; lia|lia|destruct t; cbn; lia].
  Qed.
  Lemma C67_parent_exact_lemma T b : (0 < T)%R -> (0 <= b)%R -> forall u, u < parents fs f ->
    (forall j, j < parents fs f -> j <> u -> (lean t (read_msgs fs vt) f j <= - b)%R) ->
    (b <= lean t (read_msgs fs vt) f (parents fs f))%R ->
    (b - T * (INR (parents fs f - 1) * ln 2) <= lean t (read_msgs fs (pass_fac_to_var_messages st T lp vt)) f u)%R.
  Proof.
    intros HT Hb u Hu H Hc.
    destruct (logical_part RNum (gr_groups g) Hwf junk g st eq_refl Hst T lp vt Hvt f Hf) as [vt' [f' [Ht [Hok [Hvt' [Hf' [Ea [Ein Eout]]]]]]]].
    fold t in Ht, Hok, Hvt', Hf', Ea, Ein, Eout. fold fs in Ea, Ein, Eout. set (vss := logical_factors t (gr_groups g)) in *.
    pose proof (parents_k t vss vt' Hok Hvt' f' Hf') as Pk. unfold parents in Pk. rewrite <- Ea in Pk.
    unfold parents in *. rewrite Pk in *.
    eapply Rle_trans; [apply (parent_exact t vss vt' Ht Hok Hvt' T b f' u HT Hb Hf' Hu)|].
    - intros j Hj Hne. unfold lean. rewrite !Ein; [apply H; lia|lia|destruct t; cbn; lia|lia|destruct t; cbn; lia].
    - unfold lean. rewrite !Ein; [exact Hc|lia|destruct t; cbn; lia|lia|destruct t; cbn; lia].
    - unfold lean. rewrite !Eout; [apply Rle_refl|lia|destruct t; cbn; lia|lia|destruct t; cbn; lia].
  Qed.
End Messages.
