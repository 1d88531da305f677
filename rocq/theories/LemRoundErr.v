(** * Proofs about the drift of rounded runs (C51). *)
From Verif Require Import NumPy Lists VGroup FGraph BPState BP Rounded SpecVGroup SpecFGraph SpecFactor SpecWiring SpecState SpecBP SpecText SpecBeliefs SpecRounded SpecStable SpecRoundErr.
From Verif Require Import LemFGraph LemWiring LemGraph LemState LemNum LemNorm LemVtoF LemEnum LemLogCode LemLogical LemLogBP LemText LemRun LemIter LemPass LemSplit LemBeliefs LemRounded LemStable.
From Coq Require Import Reals Lra Lia.
Local Open Scope nat_scope.

(** ** Lists from messages *)
Section Write.
  Context {A : Type} (fs : list (sfactor A)).
  Definition write_msgs (m : msg) : list R :=
    concat (map (fun fu => map (m (fst fu) (snd fu)) (seq 0 (snd (var_at fs (fst fu) (snd fu))))) (slots fs)).
  Lemma slots_states : map (fun fu => snd (var_at fs (fst fu) (snd fu))) (slots fs) = map snd (sf_edges fs).
  Proof.
    apply (nth_ext _ _ 0 0).
    - rewrite !map_length. pose proof (f_equal (@length nat) (edges_slots fs)) as E. rewrite map_length, seq_length in E. exact E.
    - intros k Hk. rewrite map_length in Hk. rewrite (nth_map _ _ _ _ (0, 0)) by exact Hk.
      pose proof (f_equal (fun l => nth k l 0) (edges_slots fs)) as E. cbv beta in E. rewrite (nth_map _ _ _ _ (0, 0)) in E by exact Hk.
      assert (Hi : In (nth k (slots fs) (0, 0)) (slots fs)) by now apply nth_In.
      assert (Hk' : k < length (sf_edges fs)).
      { pose proof (f_equal (@length nat) (edges_slots fs)) as El. rewrite map_length, seq_length in El. lia. }
      rewrite seq_nth in E by exact Hk'. cbn [Nat.add] in E. apply In_slots in Hi.
      rewrite <- (slot_states fs _ _ (proj1 Hi) (proj2 Hi)). unfold edge_no in E. now rewrite E.
  Qed.
  Lemma write_length m : length (write_msgs m) = total_states fs.
  Proof.
    unfold write_msgs. rewrite concat_length, map_map. unfold total_states. rewrite <- slots_states. f_equal. apply map_ext. intros fu.
    now rewrite map_length, seq_length.
  Qed.
  Lemma read_write m : msg_eq fs (read_msgs fs (write_msgs m)) m.
  Proof.
    intros f u s Hf Hu Hs. unfold read_msgs, slot_index, edge_start.
    set (e := sf_first_edge fs f + u).
    assert (Hi : In (f, u) (slots fs)) by (apply In_slots; auto).
    pose proof (f_equal (@length nat) (edges_slots fs)) as El. rewrite map_length, seq_length in El.
    assert (He : e < length (slots fs)). { rewrite El. exact (edge_no_lt fs (f, u) Hi). }
    assert (En : nth e (slots fs) (0, 0) = (f, u)).
    { apply (edge_no_inj fs); [now apply nth_In|exact Hi|]. pose proof (f_equal (fun l => nth e l 0) (edges_slots fs)) as E. cbv beta in E.
      rewrite (nth_map _ _ _ _ (0, 0)) in E by exact He. rewrite seq_nth in E by lia. exact E. }
    unfold write_msgs.
    assert (Ls : map (@length R) (map (fun fu => map (m (fst fu) (snd fu)) (seq 0 (snd (var_at fs (fst fu) (snd fu))))) (slots fs)) = map snd (sf_edges fs)).
    { rewrite map_map, <- slots_states. apply map_ext. intros fu. now rewrite map_length, seq_length. }
    rewrite <- Ls. rewrite nth_concat.
    - rewrite (nth_map _ _ _ _ (0, 0)) by exact He. rewrite En. cbn [fst snd]. now rewrite nth_map_seq.
    - now rewrite map_length.
    - rewrite (nth_map _ _ _ _ (0, 0)) by exact He. rewrite En. cbn [fst snd]. now rewrite map_length, seq_length.
  Qed.
End Write.

Lemma rounding_drift_nonneg D K d n : (0 <= d <= 1)%R -> (0 <= rounding_drift D K d n)%R.
Proof.
  intros Hd. pose proof (pos_INR D). pose proof (pos_INR K). pose proof (pos_INR (K - 1)). pose proof (pos_INR (D - 1)).
  induction n as [|n IH]; [cbn; lra|]. cbn [rounding_drift]. cbv zeta. set (x := rounding_drift D K d n) in *.
  assert (0 <= INR (K - 1) * INR (D - 1) * x)%R by (repeat apply Rmult_le_pos; lra).
  assert (0 <= INR (K - 1) * (2 * INR D + 3))%R by (apply Rmult_le_pos; lra).
  assert (0 <= d * x)%R by (apply Rmult_le_pos; lra).
  assert (0 <= (1 - d) * (INR (K - 1) * INR (D - 1) * x + (2 * (INR K + 2) + INR (K - 1) * (2 * INR D + 3))))%R by (apply Rmult_le_pos; lra). lra.
Qed.

Section Err.
  Context (rnd ex lg : R -> R) (e M : R).
  Hypothesis Hrd : is_rounding rnd.
  Hypothesis Hw : rounds_within rnd e M.
  Hypothesis He : (0 <= e <= 1)%R.
  Let N := RoundNum rnd ex lg.

  Lemma rnd_near x b : (Rabs x <= b)%R -> (b <= M)%R -> (Rabs (rnd x - x) <= e)%R /\ (Rabs (rnd x) <= b + e)%R.
  Proof.
    intros H1 H2. pose proof (Hw x ltac:(lra)) as H. split; [exact H|].
    replace (rnd x) with ((rnd x - x) + x)%R by ring. eapply Rle_trans; [apply Rabs_triang|]. lra.
  Qed.

  (** Repeated rounded addition. *)
  Definition radds (b : R) (l : list R) : R := fold_left (fun x y => rnd (x + y)%R) l b.
  Lemma radds_near l : forall b k X B, length l <= k -> (Rabs b <= B)%R -> (0 <= X)%R -> (forall x, In x l -> (Rabs x <= X)%R) ->
    (B + INR k * (X + e) <= M)%R ->
    (Rabs (radds b l - (b + rsum l)) <= INR k * e)%R /\ (Rabs (radds b l) <= B + INR k * (X + e))%R.
  Proof.
    induction l as [|x l IH]; intros b k X B Hk Hb HX Hl HM.
    - cbn [radds fold_left]. unfold radds. cbn [fold_left]. rewrite rsum_nil. pose proof (pos_INR k) as Pk.
      replace (b - (b + 0))%R with 0%R by ring. rewrite Rabs_R0. split; [apply Rmult_le_pos; lra|].
      assert (0 <= INR k * (X + e))%R by (apply Rmult_le_pos; lra). lra.
    - destruct k as [|k]; [cbn in Hk; lia|]. rewrite S_INR in *. pose proof (pos_INR k) as Pk.
      assert (Hx : (Rabs x <= X)%R) by (apply Hl; now left).
      assert (Q : (0 <= INR k * (X + e))%R) by (apply Rmult_le_pos; lra).
      assert (Hs : (Rabs (b + x) <= B + X)%R) by (eapply Rle_trans; [apply Rabs_triang|]; lra).
      destruct (rnd_near (b + x) (B + X) Hs) as [N1 N2]; [lra|].
      destruct (IH (rnd (b + x)) k X (B + X + e)%R) as [I1 I2]; [cbn in Hk; lia|exact N2|exact HX|intros y Hy; apply Hl; now right|lra|].
      change (radds b (x :: l)) with (radds (rnd (b + x)) l). rewrite rsum_cons. split; [|lra].
      replace (radds (rnd (b + x)) l - (b + (x + rsum l)))%R with ((radds (rnd (b + x)) l - (rnd (b + x) + rsum l)) + (rnd (b + x) - (b + x)))%R by ring.
      eapply Rle_trans; [apply Rabs_triang|]. lra.
  Qed.

  (** ** Messages to the factors *)
  Section VtoF.
    Context {A : Type} (fs : list (sfactor A)) (starts0 : list (variable * nat)) (n : nat) (msgs ev : list R).
    Hypothesis Hlay : disjoint_layout starts0 (sf_edges fs) n.
    Hypothesis Hm : length msgs = total_states fs.
    Hypothesis Hev : n <= length ev.
    Let m := read_msgs fs msgs.

    (** Rounded sums, for a variable in some factor or known to the layout. *)
    Lemma nth_sums_N es x s (l : list R) : disjoint_layout starts0 (x :: es) n -> length l = list_sum (map snd es) -> s < snd x ->
      nth (start_of starts0 x + s) (scatter (@nadd R N) ev (edge_var_states starts0 es) l) 0%R
      = radds (nth (start_of starts0 x + s) ev 0%R) (map (fun i => nth (edge_start es i + s) l 0%R) (edges_of es x)).
    Proof.
      intros Hl Hm' Hs. rewrite (flat_as_map _ _ Hm') at 1. rewrite edge_var_states_as_map.
      assert (Hp : start_of starts0 x + s < length ev) by (pose proof (proj1 Hl x (or_introl eq_refl)); lia).
      rewrite nth_scatter_map; [|intros; lia|exact Hp]. unfold radds.
      change (@nadd R N) with (fun x y => rnd (x + y)%R). f_equal.
      assert (E : filter (fun p => Z.eqb (Z.of_nat (start_of starts0 (nth (fst p) es (0%Z, 0)) + snd p)) (Z.of_nat (start_of starts0 x + s))) (positions (map snd es))
                  = map (fun e => (e, s)) (edges_of es x)); [|rewrite E, map_map; reflexivity].
      unfold positions, edges_of. rewrite filter_flat_map, map_length, <- flat_map_if. apply flat_map_ext_in.
      intros i Hi. apply in_seq in Hi. rewrite nth_states by lia. rewrite filter_map. cbn [fst snd].
      assert (Hie : In (nth i es (0%Z, 0)) es) by (apply nth_In; lia).
      destruct (var_eqb (nth i es (0%Z, 0)) x) eqn:Ex.
      - apply var_eqb_eq in Ex. rewrite Ex.
        rewrite (filter_ext _ (fun t => t =? s)); [now rewrite filter_seq_eq|].
        intros t. destruct (Nat.eqb_spec t s); [subst; apply Z.eqb_refl|apply Z.eqb_neq; lia].
      - rewrite filter_none; [reflexivity|]. intros t Ht. apply in_seq in Ht. apply Z.eqb_neq. intros F.
        destruct (layout_same starts0 (x :: es) n Hl (nth i es (0%Z, 0)) x t s) as [F1 F2]; [now right|now left|lia|lia|lia|].
        rewrite F1, (proj2 (var_eqb_eq x x) eq_refl) in Ex. discriminate.
    Qed.
    Lemma nth_var_sums_N x s : In x (sf_edges fs) -> s < snd x ->
      nth (start_of starts0 x + s) (scatter (@nadd R N) ev (edge_var_states starts0 (sf_edges fs)) msgs) 0%R
      = radds (read_ev starts0 ev x s) (map (fun fu => m (fst fu) (snd fu) s) (slots_of fs x)).
    Proof.
      intros Hx Hs. rewrite nth_sums_N; [|split|exact Hm|exact Hs].
      - unfold read_ev. rewrite slots_of_edges, map_map. reflexivity.
      - intros y [<-|Hy]; now apply Hlay.
      - intros y z [<-|Hy] [<-|Hz]; now apply Hlay.
    Qed.
    Lemma vtof_code_N f u s : f < length fs -> u < arity fs f -> s < snd (var_at fs f u) ->
      read_msgs fs (@pass_var_to_fac_messages R N msgs ev (edge_var_states starts0 (sf_edges fs))) f u s
      = rnd (radds (read_ev starts0 ev (var_at fs f u) s) (map (fun fu => m (fst fu) (snd fu) s) (slots_of fs (var_at fs f u))) - m f u s)%R.
    Proof.
      intros Hf Hu Hs. unfold read_msgs at 1, slot_index, pass_var_to_fac_messages, vsub.
      set (i := sf_first_edge fs f + u).
      assert (Hi : i < length (sf_edges fs)) by (change (edge_no fs (f, u) < length (sf_edges fs)); apply edge_no_lt, In_slots; auto).
      assert (Hsi : s < nth i (map snd (sf_edges fs)) 0) by (unfold i; now rewrite slot_states).
      pose proof (off_block_lt (map snd (sf_edges fs)) i s) as Hb. rewrite map_length in Hb. specialize (Hb Hi Hsi). fold (edge_start (sf_edges fs) i) in Hb.
      assert (Hx : In (var_at fs f u) (sf_edges fs)) by now apply var_in_edges.
      rewrite (nth_map2 _ _ _ _ _ 0%R 0%R) by (rewrite ?gather_length, ?edge_var_states_length; try unfold total_states in Hm; lia).
      change (@nsub R N) with (fun x y => rnd (x - y)%R). cbv beta. f_equal. f_equal.
      change (@n0 R N) with 0%R.
      rewrite nth_gather; rewrite ?edge_var_states_length; [|exact Hb|].
      2:{ rewrite nth_edge_var_states by assumption. unfold i. rewrite edge_var by assumption. rewrite scatter_length. pose proof (proj1 Hlay _ Hx). lia. }
      rewrite nth_edge_var_states by assumption. unfold i. rewrite edge_var by assumption. rewrite Nat2Z.id. now apply nth_var_sums_N.
    Qed.

    Context (B : R) (D : nat).
    Hypothesis HB : (0 <= B)%R.
    Hypothesis HevB : forall x s, In x (sf_edges fs) -> s < snd x -> (Rabs (read_ev starts0 ev x s) <= B)%R.
    Hypothesis HD : forall x, length (slots_of fs x) <= D.
    Hypothesis Hint : forall f u s, f < length fs -> u < arity fs f -> s < snd (var_at fs f u) -> (-1000 <= m f u s <= 0)%R.
    Hypothesis HM : (B + INR D * (1000 + e) + 1000 <= M)%R.

    Lemma sums_near x s : In x (sf_edges fs) -> s < snd x ->
      let y := radds (read_ev starts0 ev x s) (map (fun fu => m (fst fu) (snd fu) s) (slots_of fs x)) in
      (Rabs (y - text_belief fs (read_ev starts0 ev) m x s) <= INR D * e)%R /\ (Rabs y <= B + INR D * (1000 + e))%R.
    Proof.
      intros Hx Hs. cbv zeta. unfold text_belief.
      apply (radds_near _ _ D 1000 B); [rewrite map_length; apply HD|now apply HevB|lra| |lra].
      intros y Hy. apply in_map_iff in Hy. destruct Hy as [[f u] [<- Hy]]. apply In_slots_of in Hy. destruct Hy as [H1 [H2 H3]]. cbn [fst snd].
      rewrite <- H3 in Hs. pose proof (Hint f u s H1 H2 Hs). apply Rabs_le. lra.
    Qed.
    Lemma vtof_near f u s : f < length fs -> u < arity fs f -> s < snd (var_at fs f u) ->
      let v := read_msgs fs (@pass_var_to_fac_messages R N msgs ev (edge_var_states starts0 (sf_edges fs))) in
      (Rabs (v f u s - var_to_fac fs (read_ev starts0 ev) m f u s) <= (INR D + 1) * e)%R /\
      (Rabs (v f u s) <= B + (INR D + 1) * (1000 + e))%R.
    Proof.
      intros Hf Hu Hs. cbv zeta. rewrite vtof_code_N by assumption.
      assert (Hx : In (var_at fs f u) (sf_edges fs)) by now apply var_in_edges.
      destruct (sums_near (var_at fs f u) s Hx Hs) as [S1 S2]. cbv zeta in S1, S2.
      set (y := radds _ _) in *. pose proof (Hint f u s Hf Hu Hs) as Hi.
      assert (Hy : (Rabs (y - m f u s) <= B + INR D * (1000 + e) + 1000)%R).
      { apply Rabs_between in S2. apply Rabs_le. lra. }
      destruct (rnd_near _ _ Hy HM) as [N1 N2]. split; [|lra].
      assert (Ev : text_belief fs (read_ev starts0 ev) m (var_at fs f u) s = (var_to_fac fs (read_ev starts0 ev) m f u s + m f u s)%R).
      { unfold text_belief, var_to_fac.
        assert (G : forall l : list (nat * nat), NoDup l -> In (f, u) l -> rsum (map (fun fu => m (fst fu) (snd fu) s) l)
           = (m f u s + rsum (map (fun fu => m (fst fu) (snd fu) s) (filter (fun fu => negb (slot_eqb fu (f, u))) l)))%R).
        { induction l as [|p l IH]; intros Hn Hin; [destruct Hin|]. inversion Hn as [|? ? Hp Hl]; subst. cbn [map filter].
          destruct (slot_eqb p (f, u)) eqn:Ep; cbn [negb map].
          - unfold slot_eqb in Ep. apply andb_true_iff in Ep. destruct Ep as [E1 E2]. apply Nat.eqb_eq in E1, E2. destruct p as [f' u']. cbn [fst snd] in *. subst f' u'.
            rewrite rsum_cons. f_equal. f_equal. f_equal. symmetry. clear - Hp. induction l as [|q l IH]; [reflexivity|]. cbn [filter].
            destruct (slot_eqb q (f, u)) eqn:Eq; cbn [negb].
            + exfalso. apply Hp. left. unfold slot_eqb in Eq. apply andb_true_iff in Eq. destruct Eq as [E1 E2]. apply Nat.eqb_eq in E1, E2. destruct q. cbn in *. congruence.
            + f_equal. apply IH. intros F. apply Hp. now right.
          - rewrite !rsum_cons. destruct Hin as [->|Hin]; [unfold slot_eqb in Ep; cbn in Ep; rewrite !Nat.eqb_refl in Ep; discriminate|]. rewrite (IH Hl Hin). ring. }
        rewrite (G (slots_of fs (var_at fs f u))); [ring| |apply In_slots_of; auto].
        unfold slots_of. apply NoDup_filter. rewrite slots_positions. apply NoDup_positions. }
      rewrite Ev in S1. replace (rnd (y - m f u s) - var_to_fac fs (read_ev starts0 ev) m f u s)%R
        with ((rnd (y - m f u s) - (y - m f u s)) + (y - (var_to_fac fs (read_ev starts0 ev) m f u s + m f u s)))%R by ring.
      eapply Rle_trans; [apply Rabs_triang|]. lra.
    Qed.
  End VtoF.

  (** ** Enumeration factors *)
  Lemma Rmax_between a b x : (- x <= a - b <= x)%R -> forall c, (- x <= Rmax c a - Rmax c b <= x)%R.
  Proof. intros H c. unfold Rmax. destruct (Rle_dec c a), (Rle_dec c b); lra. Qed.
  Section Enum.
    Context {A : Type} (fs : list (sfactor A)).
    Hypothesis Hcfg : configs_ok fs.
    Context (vt lp : list R).
    Hypothesis Hvt : length vt = total_states fs.
    Hypothesis Hlp : length lp = total_configs fs.
    Let v := read_msgs fs vt.
    Let pots := read_pots fs lp.
    Let nc := total_configs fs.
    Definition rscore f c : R :=
      rnd (radds 0 (map (fun u => v f u (config_at_slot fs f c u)) (seq 0 (arity fs f))) + pots f c)%R.

    Let summary := @vadd R N (scatter (@nadd R N) (repeat 0%R nc) (map (t_cfg fs) (triples fs)) (gather 0%R vt (map (t_est fs) (triples fs)))) lp.
    Lemma nth_summary_N f c : f < length fs -> c < length (sf_configs (factor_at fs f)) -> nth (sf_first_config fs f + c) summary 0%R = rscore f c.
    Proof.
      intros Hf Hc. pose proof (first_config_lt fs f c Hf Hc) as L. unfold summary, vadd.
      rewrite (nth_map2 _ _ _ _ _ 0%R 0%R) by (rewrite ?scatter_length, ?repeat_length, ?Hlp; unfold nc, total_configs; exact L).
      rewrite (gather_est fs Hcfg vt lp Hvt Hlp). rewrite nth_scatter_map; [|intros; unfold t_cfg; lia|rewrite repeat_length; exact L].
      rewrite nth_repeat_R, (t_cfg_filter fs f c) by assumption. rewrite map_map. reflexivity.
    Qed.
    Lemma gather_summary_N : gather 0%R summary (map (t_cfg fs) (triples fs)) = map (fun t => rscore (fst t) (fst (snd t))) (triples fs).
    Proof.
      unfold gather. rewrite map_map. apply map_ext_in. intros [f [c u]] Ht. apply In_triples in Ht. unfold t_cfg. cbn [fst snd].
      rewrite gather1_in; [rewrite Nat2Z.id; apply nth_summary_N; tauto|].
      unfold summary, vadd. rewrite map2_length, scatter_length, repeat_length, Hlp. fold nc.
      pose proof (first_config_lt fs f c). assert (sf_first_config fs f + c < nc) by (unfold nc, total_configs; tauto). lia.
    Qed.
    Lemma enum_code_N f u s : f < length fs -> u < arity fs f -> s < snd (var_at fs f u) ->
      read_msgs fs (@pass_enum_fac_to_var_messages R N vt (sf_rows fs) lp nc 0%R) f u s
      = rnd (rmax neg_inf (map (rscore f) (choices fs f u s)) - v f u s)%R.
    Proof.
      intros Hf Hu Hs. pose proof (slot_index_lt fs f u s Hf Hu Hs) as L. unfold pass_enum_fac_to_var_messages.
      destruct (rows_triples fs Hcfg) as [-> ->].
      replace (@neqb R N 0%R (@n0 R N)) with true by (symmetry; exact (proj2 (neqb_R 0%R 0%R) eq_refl)).
      change (@n0 R N) with 0%R. fold summary. rewrite gather_summary_N. unfold read_msgs at 1, vsub.
      rewrite (nth_map2 _ _ _ _ _ 0%R 0%R) by (rewrite ?scatter_length, ?repeat_length; lia).
      change (@nsub R N) with (fun x y => rnd (x - y)%R). cbv beta. f_equal. f_equal.
      rewrite nth_scatter_map; [|intros; unfold t_est; lia|rewrite repeat_length; lia].
      rewrite nth_repeat_lt by lia. rewrite (t_est_filter fs Hcfg vt lp Hvt Hlp f u s) by assumption. rewrite map_map. cbn [fst snd].
      rewrite (fold_left_ext _ Rmax) by (intros; apply nmax_N). now rewrite fold_left_Rmax.
    Qed.

    Context (V P : R) (K : nat).
    Hypothesis HV : (0 <= V)%R.
    Hypothesis HvV : forall f u s, f < length fs -> u < arity fs f -> s < snd (var_at fs f u) -> (Rabs (v f u s) <= V)%R.
    Hypothesis HpP : forall f c, f < length fs -> c < length (sf_configs (factor_at fs f)) -> (Rabs (pots f c) <= P)%R.
    Hypothesis HK : forall f, f < length fs -> arity fs f <= K.
    Hypothesis Hcov : covered fs.
    Hypothesis HM : (INR K * (V + e) + P + e + V <= M)%R.
    Hypothesis Hfl : (INR K * (V + e) + P + e <= 100000)%R.

    Lemma rscore_near f c : f < length fs -> c < length (sf_configs (factor_at fs f)) ->
      (Rabs (rscore f c - score fs pots v f c) <= (INR K + 1) * e)%R /\ (Rabs (rscore f c) <= INR K * (V + e) + P + e)%R /\
      (Rabs (score fs pots v f c) <= INR K * (V + e) + P + e)%R.
    Proof.
      intros Hf Hc. unfold rscore. set (l := map (fun u => v f u (config_at_slot fs f c u)) (seq 0 (arity fs f))).
      assert (Hl : forall x, In x l -> (Rabs x <= V)%R).
      { intros x Hx. apply in_map_iff in Hx. destruct Hx as [u [<- Hu]]. apply in_seq in Hu. apply HvV; [exact Hf|lia|]. apply (config_ok fs Hcfg); auto; lia. }
      assert (Hk : length l <= K) by (unfold l; rewrite map_length, seq_length; now apply HK).
      pose proof (HpP f c Hf Hc) as Hp. pose proof (Rabs_pos (pots f c)).
      destruct (radds_near l 0%R K V 0%R Hk) as [R1 R2]; [rewrite Rabs_R0; lra|exact HV|exact Hl|lra|].
      assert (Hs : (Rabs (radds 0 l + pots f c) <= INR K * (V + e) + P)%R) by (eapply Rle_trans; [apply Rabs_triang|]; lra).
      destruct (rnd_near _ _ Hs) as [N1 N2]; [lra|].
      assert (Es : score fs pots v f c = (rsum l + pots f c)%R) by (unfold score; fold l; ring).
      rewrite Es. split; [|split].
      - replace (rnd (radds 0 l + pots f c) - (rsum l + pots f c))%R with ((rnd (radds 0 l + pots f c) - (radds 0 l + pots f c)) + (radds 0 l - (0 + rsum l)))%R by ring.
        eapply Rle_trans; [apply Rabs_triang|]. lra.
      - lra.
      - assert (Hr : (Rabs (rsum l) <= INR K * V)%R).
        { apply Rle_trans with (INR (length l) * V)%R; [|apply Rmult_le_compat_r; [exact HV|now apply le_INR]].
          clear - Hl. induction l as [|x l IH]; [rewrite rsum_nil, Rabs_R0; cbn; lra|]. rewrite rsum_cons. cbn [length]. rewrite S_INR.
          eapply Rle_trans; [apply Rabs_triang|]. pose proof (Hl x (or_introl eq_refl)). specialize (IH (fun y Hy => Hl y (or_intror Hy))). lra. }
        eapply Rle_trans; [apply Rabs_triang|]. pose proof (pos_INR K). assert (0 <= INR K * e)%R by (apply Rmult_le_pos; lra). lra.
    Qed.
    Lemma enum_near f u s : f < length fs -> u < arity fs f -> s < snd (var_at fs f u) ->
      let y := read_msgs fs (@pass_enum_fac_to_var_messages R N vt (sf_rows fs) lp nc 0%R) f u s in
      (Rabs (y - fac_to_var_max fs pots v f u s) <= (INR K + 2) * e)%R /\ (Rabs y <= INR K * (V + e) + P + e + V + e)%R.
    Proof.
      intros Hf Hu Hs. cbv zeta. rewrite enum_code_N by assumption.
      assert (Hne : choices fs f u s <> []) by now apply Hcov.
      assert (Hch : forall c, In c (choices fs f u s) -> c < length (sf_configs (factor_at fs f))) by (intros c Hc; now apply choice_iff in Hc).
      assert (Nf : forall h : nat -> R, map h (choices fs f u s) <> []) by (intros h; destruct (choices fs f u s); [contradiction|discriminate]).
      assert (Ef : forall h : nat -> R, (forall c, In c (choices fs f u s) -> (Rabs (h c) <= INR K * (V + e) + P + e)%R) ->
        rmax neg_inf (map h (choices fs f u s)) = rmaxs (map h (choices fs f u s)) /\ (Rabs (rmaxs (map h (choices fs f u s))) <= INR K * (V + e) + P + e)%R).
      { intros h Hh. pose proof (rmaxs_In _ (Nf h)) as I. apply in_map_iff in I. destruct I as [c [Ec Hc]]. specialize (Hh c Hc). split; [|rewrite <- Ec; exact Hh].
        rewrite rmax_rmaxs by apply Nf. apply Rmax_right. rewrite <- Ec. apply Rabs_between in Hh. unfold neg_inf. lra. }
      destruct (Ef (rscore f)) as [E1 B1]; [intros c Hc; now apply rscore_near; auto|].
      destruct (Ef (score fs pots v f)) as [E2 B2]; [intros c Hc; now apply rscore_near; auto|].
      assert (Efl : fac_to_var_max fs pots v f u s = (rmaxs (map (score fs pots v f) (choices fs f u s)) - v f u s)%R).
      { rewrite <- E2. symmetry. apply floor_max; [exact Hf|exact Hu|]. destruct (choices fs f u s) as [|c0 l0] eqn:Ech; [contradiction|].
        exists c0. split; [now left|]. destruct (rscore_near f c0 Hf) as [_ [_ R3]]; [apply Hch; now left|]. apply Rabs_between in R3. unfold neg_inf. lra. }
      rewrite E1, Efl. set (a := rmaxs (map (rscore f) _)) in *. set (b := rmaxs (map (score _ _ _ _) _)) in *.
      assert (Hab : (- ((INR K + 1) * e) <= a - b <= - ((INR K + 1) * e) + 2 * ((INR K + 1) * e))%R).
      { apply rmaxs_between; [exact Hne|]. intros c Hc. destruct (rscore_near f c Hf (Hch c Hc)) as [R1 _]. apply Rabs_between in R1. lra. }
      pose proof (HvV f u s Hf Hu Hs) as Hv.
      assert (Hs' : (Rabs (a - v f u s) <= INR K * (V + e) + P + e + V)%R).
      { apply Rabs_between in B1. apply Rabs_between in Hv. apply Rabs_le. lra. }
      destruct (rnd_near _ _ Hs' HM) as [N1 N2]. split; [|exact N2].
      apply Rabs_between in N1. apply Rabs_le. lra.
    Qed.
  End Enum.

  (** ** Logical factors *)
  Lemma nmin_N (x y : R) : @nmin R N x y = Rmin x y.
  Proof. etransitivity; [|apply nmin_R]. reflexivity. Qed.
  Lemma argmaxes_N (data : list R) labels n : @get_maxes_and_argmaxes R N data labels n = get_maxes_and_argmaxes data labels n.
  Proof. reflexivity. Qed.
  Lemma Rmax0_abs x b : (Rabs x <= b)%R -> (Rabs (Rmax 0 x) <= b)%R.
  Proof. intros H. pose proof (Rabs_between _ _ H). apply Rabs_le. unfold Rmax. destruct (Rle_dec 0 x); lra. Qed.
  Lemma Rmin0_abs x b : (Rabs x <= b)%R -> (Rabs (Rmin 0 x) <= b)%R.
  Proof. intros H. pose proof (Rabs_between _ _ H). apply Rabs_le. unfold Rmin. destruct (Rle_dec 0 x); lra. Qed.
  Lemma logical_sfs_ok {A} (z : A) t vss : logical_ok vss -> configs_ok (map (logical_sf z t) vss).
  Proof. intros Hok. apply configs_ok_iff, Forall_forall. intros F HF. apply in_map_iff in HF. destruct HF as [vs [<- Hvs]]. destruct (Hok vs Hvs). now apply logical_sf_ok. Qed.
  Lemma spread_upto n h h' b : (forall s, s < n -> h s = (h' s + b)%R) -> spread n h h' 0.
  Proof. intros H. exists b. intros s Hs. rewrite H by exact Hs. lra. Qed.
  Section LogicalCode.
    Context (ks : list nat) (P : nat * nat -> R) (C : nat -> R) (Q : R) (K : nat).
    Local Notation nf := (length ks).
    Local Notation k f := (nth f ks 0).
    Local Notation pp := (positions ks).
    Hypothesis Hk : forall f, f < nf -> 0 < k f <= K.
    Hypothesis HQ : (0 <= Q < 100000)%R.
    Hypothesis HP : forall f u, f < nf -> u < k f -> (Rabs (P (f, u)) <= Q)%R.
    Hypothesis HC : forall f, f < nf -> (Rabs (C f) <= Q)%R.
    Hypothesis HM : ((INR K + 2) * (Q + e) <= M)%R.

    Lemma logical_both : exists PM PM' CH CH',
      @logical_max_product R N (map P pp) (map C (seq 0 nf)) (map lab pp) nf = (map PM' pp, map CH' (seq 0 nf)) /\
      logical_max_product (map P pp) (map C (seq 0 nf)) (map lab pp) nf = (map PM pp, map CH (seq 0 nf)) /\
      forall f, f < nf ->
        (Rabs (CH' f - CH f) <= (INR K + 2) * e)%R /\ (Rabs (CH' f) <= (INR K + 2) * (Q + e))%R /\
        forall u, u < k f -> (Rabs (PM' (f, u) - PM (f, u)) <= (INR K + 2) * e)%R /\ (Rabs (PM' (f, u)) <= (INR K + 2) * (Q + e))%R.
    Proof.
      destruct (argmaxes_spec ks P) as [a [Ha Ea]].
      { intros f Hf. exists 0. split; [now apply Hk|]. pose proof (HP f 0 Hf ltac:(now apply Hk)) as H. apply Rabs_between in H. unfold neg_inf. lra. }
      assert (Ha' : forall f, f < nf -> a f < k f) by (intros f Hf; now apply Ha).
      set (D2 := fun p : nat * nat => if (snd p =? a (fst p))%nat then neg_inf else P p).
      destruct (argmaxes_spec ks D2) as [b [Hb Eb]].
      { intros f Hf. exists (a f). split; [now apply Ha'|]. unfold D2. cbn [fst snd]. rewrite Nat.eqb_refl. apply Rle_refl. }
      assert (Hb' : forall f, f < nf -> b f < k f) by (intros f Hf; now apply Hb).
      set (S' := fun f => radds 0 (map (fun u => Rmax 0 (P (f, u))) (seq 0 (k f)))).
      set (S := fun f => rsum (map (fun u => Rmax 0 (P (f, u))) (seq 0 (k f)))).
      set (j := fun p : nat * nat => if snd p =? a (fst p) then b (fst p) else a (fst p)).
      exists (fun p => Rmin (C (fst p) + S (fst p) - Rmax 0 (P p)) (Rmax 0 (0 - P (fst p, j p)))).
      exists (fun p => Rmin (rnd (rnd (C (fst p) + S' (fst p)) - Rmax 0 (P p))) (Rmax 0 (rnd (0 - P (fst p, j p))))).
      exists (fun f => S f + Rmin 0 (P (f, a f)))%R.
      exists (fun f => rnd (S' f + Rmin 0 (P (f, a f))))%R.
      assert (E2 : forall W : Num R, @NEG_INF R W = neg_inf -> scatter_set (map P pp) (map (fun f => pidx ks f (a f)) (seq 0 nf)) (repeat (@NEG_INF R W) (length (map (fun f => pidx ks f (a f)) (seq 0 nf)))) = map D2 pp).
      { intros W ->. rewrite map_length, seq_length, repeat_as_map. rewrite (set_par ks P a (fun _ => neg_inf)) by exact Ha'. reflexivity. }
      split; [|split].
      - unfold logical_max_product. rewrite !argmaxes_N. rewrite Ea, E2, Eb by reflexivity.
        rewrite !(gather_par ks) by assumption.
        assert (E3 : map (@nmax R N (@n0 R N)) (map P pp) = map (fun p => Rmax 0 (P p)) pp) by (rewrite map_map; apply map_ext; intros; apply nmax_N).
        rewrite E3.
        assert (E4 : scatter (@nadd R N) (repeat (@n0 R N) nf) (map lab pp) (map (fun p => Rmax 0 (P p)) pp) = map S' (seq 0 nf)).
        { rewrite repeat_as_map, (scatter_fac ks). apply map_ext. intros f. reflexivity. }
        rewrite E4, !(gather_fac ks). rewrite !(gather_par ks) by assumption. unfold vadd, vsub. rewrite !map_map, !map2_map.
        rewrite (set_par ks _ a) by exact Ha'. f_equal.
        + apply map_ext. intros [f u]. cbn [fst snd]. unfold j. cbn [fst snd]. destruct (Nat.eqb_spec u (a f)) as [->|Hne]; rewrite nmin_N; apply f_equal; apply (nmax_N rnd ex lg).
        + apply map_ext. intros f. rewrite nmin_N. reflexivity.
      - unfold logical_max_product. rewrite Ea, E2, Eb by reflexivity.
        rewrite !(gather_par ks) by assumption.
        assert (E3 : map (nmax n0) (map P pp) = map (fun p => Rmax 0 (P p)) pp) by (rewrite map_map; apply map_ext; intros; apply nmax_R).
        rewrite E3.
        assert (E4 : scatter nadd (repeat n0 nf) (map lab pp) (map (fun p => Rmax 0 (P p)) pp) = map S (seq 0 nf)).
        { rewrite repeat_as_map, (scatter_fac ks). apply map_ext. intros f. rewrite (fold_left_ext nadd Rplus) by (intros; apply nadd_R).
          rewrite fold_left_Rplus. unfold S. change (@n0 R RNum) with 0%R. lra. }
        rewrite E4, !(gather_fac ks). rewrite !(gather_par ks) by assumption. unfold vadd, vsub. rewrite !map_map, !map2_map.
        rewrite (set_par ks _ a) by exact Ha'. f_equal.
        + apply map_ext. intros [f u]. cbn [fst snd]. unfold j. cbn [fst snd]. destruct (Nat.eqb_spec u (a f)) as [->|Hne]; rewrite nmin_R, nmax_R; reflexivity.
        + apply map_ext. intros f. rewrite nmin_R. reflexivity.
      - intros f Hf. pose proof (pos_INR K) as PK. assert (Ke : (0 <= INR K * e)%R) by (apply Rmult_le_pos; lra). assert (KQ : (0 <= INR K * Q)%R) by (apply Rmult_le_pos; lra).
        destruct (radds_near (map (fun u => Rmax 0 (P (f, u))) (seq 0 (k f))) 0%R K Q 0%R) as [R1 R2].
        { rewrite map_length, seq_length. now apply Hk. }
        { rewrite Rabs_R0. lra. }
        { lra. }
        { intros x Hx. apply in_map_iff in Hx. destruct Hx as [u [<- Hu]]. apply in_seq in Hu. apply Rmax0_abs, HP; [exact Hf|lia]. }
        { lra. }
        fold (S' f) in R1, R2. fold (S f) in R1. apply Rabs_between in R1. apply Rabs_between in R2. split; [|split].
        + cbv beta. pose proof (Rmin0_abs _ _ (HP f (a f) Hf (Ha' f Hf))) as B1. apply Rabs_between in B1.
          destruct (rnd_near (S' f + Rmin 0 (P (f, a f))) (INR K * (Q + e) + Q)%R) as [N1 N2]; [apply Rabs_le; lra|lra|]. apply Rabs_between in N1. apply Rabs_le. lra.
        + cbv beta. pose proof (Rmin0_abs _ _ (HP f (a f) Hf (Ha' f Hf))) as B1. apply Rabs_between in B1.
          destruct (rnd_near (S' f + Rmin 0 (P (f, a f))) (INR K * (Q + e) + Q)%R) as [N1 N2]; [apply Rabs_le; lra|lra|]. lra.
        + intros u Hu. cbv beta. cbn [fst snd].
          assert (Hj : j (f, u) < k f) by (unfold j; cbn [fst snd]; destruct (u =? a f); [now apply Hb'|now apply Ha']).
          pose proof (HP f _ Hf Hj) as B1. pose proof (HC f Hf) as B2. pose proof (Rmax0_abs _ _ (HP f u Hf Hu)) as B3.
          destruct (rnd_near (0 - P (f, j (f, u))) Q) as [N1 N2]; [apply Rabs_between in B1; apply Rabs_le; lra|lra|].
          apply Rabs_between in B2. apply Rabs_between in B3.
          destruct (rnd_near (C f + S' f) (INR K * (Q + e) + Q)%R) as [N3 N4]; [apply Rabs_le; lra|lra|]. apply Rabs_between in N4.
          destruct (rnd_near (rnd (C f + S' f) - Rmax 0 (P (f, u))) (INR K * (Q + e) + Q + e + Q)%R) as [N5 N6]; [apply Rabs_le; lra|lra|].
          apply Rabs_between in N1. apply Rabs_between in N3. apply Rabs_between in N5. apply Rabs_between in N6.
          pose proof (Rmax0_abs _ _ N2) as N7. apply Rabs_between in N7.
          set (y := rnd (rnd (C f + S' f) - Rmax 0 (P (f, u)))) in *. set (y0 := (C f + S f - Rmax 0 (P (f, u)))%R) in *.
          set (w := rnd (0 - P (f, j (f, u)))) in *.
          assert (Hy : (- ((INR K + 2) * e) <= y - y0 <= (INR K + 2) * e)%R) by (unfold y0; lra).
          assert (Hmx : (- e <= Rmax 0 w - Rmax 0 (0 - P (f, j (f, u))) <= e)%R) by (apply Rmax_between; lra).
          clearbody y y0 w. split; apply Rabs_le; unfold Rmin; destruct (Rle_dec y (Rmax 0 w)), (Rle_dec y0 (Rmax 0 (0 - P (f, j (f, u))))); lra.
    Qed.
  End LogicalCode.

  Section Logical.
    Context {A : Type} (z : A) (t : ftype) (vss : list (list variable)).
    Hypothesis Hok : logical_ok vss.
    Hypothesis Ht : t <> TEnum.
    Let fs := map (logical_sf z t) vss.
    Let ks := par_counts vss.
    Let k f := nth f ks 0.
    Let rs := relevant_state t.
    Let o := 1 - rs.
    Context (vt : list R).
    Hypothesis Hvt : length vt = total_states fs.
    Let v := read_msgs fs vt.
    Context (V : R) (K : nat).
    Hypothesis HV : (0 <= V)%R.
    Hypothesis HvV : forall f u s, f < length fs -> u < arity fs f -> s < snd (var_at fs f u) -> (Rabs (v f u s) <= V)%R.
    Hypothesis HK : forall f, f < length fs -> arity fs f <= K.
    Hypothesis Hfl : (2 * V + e < 100000)%R.
    Hypothesis HM : ((INR K + 2) * (2 * V + 2 * e) <= M)%R.

    Lemma o_rs : o < 2 /\ rs < 2 /\ (o =? o) = true /\ (rs =? o) = false.
    Proof. unfold o, rs. destruct t; cbn; lia. Qed.
    (** The messages whose exact differences are the rounded differences. *)
    Definition shifted : msg := fun f u s => if s =? o then (v f u rs + rnd (v f u o - v f u rs))%R else v f u s.
    Lemma vdiff_near f u : f < length fs -> u < arity fs f ->
      (Rabs (rnd (v f u o - v f u rs) - (v f u o - v f u rs)) <= e)%R /\ (Rabs (rnd (v f u o - v f u rs)) <= 2 * V + e)%R.
    Proof.
      intros Hf Hu. destruct o_rs as [Ho [Hr _]]. pose proof Hf as Hf'. unfold fs in Hf'. rewrite map_length in Hf'.
      pose proof (states_logical z t vss Hok f u Hf' Hu) as S2. fold fs in S2.
      pose proof (HvV f u o Hf Hu) as B1. pose proof (HvV f u rs Hf Hu) as B2. rewrite S2 in B1, B2. specialize (B1 Ho). specialize (B2 Hr).
      apply Rabs_between in B1. apply Rabs_between in B2. pose proof (pos_INR K).
      assert (0 <= INR K * (2 * V + 2 * e))%R by (apply Rmult_le_pos; lra).
      apply rnd_near; [apply Rabs_le; lra|lra].
    Qed.
    Lemma shifted_spread : msgs_spread fs shifted v e.
    Proof.
      intros f u Hf Hu. destruct (vdiff_near f u Hf Hu) as [N1 _]. apply Rabs_between in N1.
      set (x := (rnd (v f u o - v f u rs) - (v f u o - v f u rs))%R) in *.
      exists (Rmin 0 x). intros s Hs. unfold shifted. destruct (Nat.eqb_spec s o) as [->|Hne].
      - replace (v f u rs + rnd (v f u o - v f u rs) - v f u o)%R with x by (unfold x; ring). unfold Rmin. destruct (Rle_dec 0 x); lra.
      - replace (v f u s - v f u s)%R with 0%R by ring. unfold Rmin. destruct (Rle_dec 0 x); lra.
    Qed.
    Lemma logical_near : exists G : msg, msg_eq_upto fs G (fac_to_var_max fs no_pots shifted) /\
      forall f u s, f < length fs -> u < arity fs f -> s < snd (var_at fs f u) ->
        let y := read_msgs fs (@pass_logical_fac_to_var_messages R N vt (lf_parents rs vss) (lf_children rs vss) (type_offset t) 0%R) f u s in
        (Rabs (y - G f u s) <= (INR K + 2) * e)%R /\ (Rabs y <= (INR K + 2) * (2 * V + 2 * e))%R.
    Proof.
      assert (Lk : length ks = length vss) by apply nf_ks. assert (Lf : length fs = length vss) by (unfold fs; apply map_length).
      assert (HKk : forall f, f < length ks -> 0 < k f <= K).
      { intros f Hf. rewrite Lk in Hf. split; [now apply (k_pos t vss Hok)|]. pose proof (HK f ltac:(now rewrite Lf)) as H. unfold fs in H. rewrite (arity_logical z t vss Hok f Hf) in H. fold ks in H. fold (k f) in H. lia. }
      assert (Har : forall f u, f < length vss -> u <= k f -> u < arity fs f) by (intros f u Hf Hu; unfold fs; rewrite (arity_logical z t vss Hok f Hf); fold ks; fold (k f); lia).
      destruct (logical_both ks (pdiff_N z t vss vt N) (cdiff_N z t vss vt N) (2 * V + e)%R K HKk) as [PM [PM' [CH [CH' [E1 [E2 B]]]]]]; [lra| | |lra|].
      { intros f u Hf Hu. rewrite Lk in Hf. apply (vdiff_near f u); [now rewrite Lf|]. apply Har; [exact Hf|fold (k f) in Hu; lia]. }
      { intros f Hf. rewrite Lk in Hf. apply (vdiff_near f (k f)); [now rewrite Lf|]. now apply Har. }
      rewrite Lk in *.
      set (wt := write_msgs fs shifted). assert (Lw : length wt = total_states fs) by apply write_length.
      assert (Rw : msg_eq fs (read_msgs fs wt) shifted) by apply read_write.
      destruct o_rs as [Ho [Hr [Eo Er]]].
      assert (Hd : forall f u, f < length vss -> u <= k f -> (read_msgs fs wt f u o - read_msgs fs wt f u rs)%R = rnd (v f u o - v f u rs)).
      { intros f u Hf Hu. assert (S2 : snd (var_at fs f u) = 2) by (apply (states_logical z t vss Hok f u Hf); now apply Har).
        rewrite !Rw by (rewrite ?Lf, ?S2; auto). unfold shifted. rewrite Eo, Er. ring. }
      assert (EP : map (pdiff z t vss wt) (positions ks) = map (pdiff_N z t vss vt N) (positions ks)).
      { apply map_ext_in. intros [f u] Hp. apply (In_pp' vss) in Hp. cbn [fst snd] in Hp. exact (Hd f u (proj1 Hp) (Nat.lt_le_incl _ _ (proj2 Hp))). }
      assert (EC : map (cdiff z t vss wt) (seq 0 (length vss)) = map (cdiff_N z t vss vt N) (seq 0 (length vss))).
      { apply map_ext_in. intros f Hf. apply in_seq in Hf. exact (Hd f (k f) ltac:(lia) (le_n _)). }
      exists (read_msgs fs (pass_logical_fac_to_var_messages wt (lf_parents rs vss) (lf_children rs vss) (type_offset t) 0%R)). split.
      - eapply upto_trans.
        + apply (upto_of_diff z t vss Hok Ht wt Lw). apply (logical_max_diff z t vss Hok Ht wt Lw).
          intros f u Hf Hu. fold rs. fold o. fold fs. fold ks in Hu. fold (k f) in Hu. rewrite Hd by (auto; lia).
          destruct (vdiff_near f u) as [_ N2]; [now rewrite Lf|apply Har; [exact Hf|lia]|]. apply Rabs_between in N2. unfold neg_inf. lra.
        + apply msg_eq_upto_refl. fold fs.
          pose proof (fac_to_var_cong fs no_pots (logical_sfs_ok z t vss Hok) 0%R _ _ Rw) as Q. unfold fac_to_var in Q.
          destruct (Req_EM_T 0 0) as [_|F]; [exact Q|now contradiction F].
      - intros f u s Hf Hu Hs. cbv zeta. rewrite Lf in Hf.
        assert (Hu' : u <= k f) by (unfold fs in Hu; rewrite (arity_logical z t vss Hok f Hf) in Hu; fold ks in Hu; fold (k f) in Hu; lia).
        assert (Hs' : s < 2) by (unfold fs in Hu, Hs; rewrite (states_logical z t vss Hok f u Hf Hu) in Hs; exact Hs).
        assert (F1 : (if @neqb R N 0%R 0%R then @logical_max_product R N (map (pdiff_N z t vss vt N) (positions ks)) (map (cdiff_N z t vss vt N) (seq 0 (length vss))) (map lab (positions ks)) (length vss)
           else @logical_sum_product R N 0%R (map (pdiff_N z t vss vt N) (positions ks)) (map (cdiff_N z t vss vt N) (seq 0 (length vss))) (map lab (positions ks)) (length vss)) = (map PM' (positions ks), map CH' (seq 0 (length vss)))).
        { replace (@neqb R N 0%R 0%R) with true by (symmetry; exact (proj2 (neqb_R 0%R 0%R) eq_refl)). exact E1. }
        assert (F2 : (if neqb 0%R 0%R then logical_max_product (map (pdiff z t vss wt) (positions ks)) (map (cdiff z t vss wt) (seq 0 (length vss))) (map lab (positions ks)) (length vss)
           else logical_sum_product 0%R (map (pdiff z t vss wt) (positions ks)) (map (cdiff z t vss wt) (seq 0 (length vss))) (map lab (positions ks)) (length vss)) = (map PM (positions ks), map CH (seq 0 (length vss)))).
        { replace (neqb 0%R 0%R) with true by (symmetry; exact (proj2 (neqb_R 0%R 0%R) eq_refl)). rewrite EP, EC. exact E2. }
        pose proof (pass_logical_code_N z t vss Hok Ht vt Hvt N 0%R PM' CH' eq_refl F1 f u s Hf Hu' Hs') as G1.
        pose proof (pass_logical_code z t vss Hok Ht wt Lw 0%R PM CH F2 f u s Hf Hu' Hs') as G2.
        fold fs rs in G1, G2. rewrite G1, G2. clear G1 G2.
        fold rs. fold o. fold ks. fold (k f). pose proof (pos_INR K) as PK. assert (Ke : (0 <= INR K * e)%R) by (apply Rmult_le_pos; lra). assert (KQ : (0 <= INR K * V)%R) by (apply Rmult_le_pos; lra).
        destruct (B f Hf) as [B1 [B2 B3]].
        destruct (s =? o); [|rewrite Rminus_0_r, !Rabs_R0; split; lra].
        destruct (Nat.ltb_spec u (k f)) as [Hl|Hl].
        + destruct (Nat.eqb_spec (k f) 1) as [K1|K1].
          * assert (Ec : cdiff z t vss wt f = cdiff_N z t vss vt N f) by exact (Hd f (k f) Hf (le_n _)). rewrite Ec.
            rewrite Rminus_diag_eq, Rabs_R0 by reflexivity. split; [lra|].
            destruct (vdiff_near f (k f)) as [_ N2]; [now rewrite Lf|now apply Har|]. eapply Rle_trans; [exact N2|]. lra.
          * destruct (B3 u Hl) as [B4 B5]. split; [exact B4|]. eapply Rle_trans; [exact B5|]. lra.
        + split; [exact B1|]. eapply Rle_trans; [exact B2|]. lra.
    Qed.
    Lemma logical_spread (ps : nat -> nat -> R) (w : msg) : covered fs -> (forall f c, f < length fs -> ps f c = 0%R) ->
      (forall f u s, f < length fs -> u < arity fs f -> s < snd (var_at fs f u) -> v f u s = w f u s) ->
      forall f u, f < length fs -> u < arity fs f ->
        let y := read_msgs fs (@pass_logical_fac_to_var_messages R N vt (lf_parents rs vss) (lf_children rs vss) (type_offset t) 0%R) f u in
        spread (snd (var_at fs f u)) y (fac_to_var fs ps 0%R w f u) (2 * ((INR K + 2) * e) + INR (K - 1) * e)%R /\
        forall s, s < snd (var_at fs f u) -> (Rabs (y s) <= (INR K + 2) * (2 * V + 2 * e))%R.
    Proof.
      intros Hcov Hps Hw' f u Hf Hu. cbv zeta. destruct logical_near as [F [FU FN]]. cbv zeta in FN. split; [|intros s Hs; now apply FN].
      destruct (FU f u Hf Hu) as [b Eb].
      apply (spread_mono _ _ _ (2 * ((INR K + 2) * e) + (0 + (0 + INR (K - 1) * e)))%R); [lra|].
      eapply spread_trans; [apply spread_near; intros s Hs; now apply FN|].
      eapply spread_trans; [apply (spread_upto _ _ _ b); exact Eb|].
      assert (T0 : fac_to_var_max fs no_pots shifted = fac_to_var fs no_pots 0%R shifted).
      { unfold fac_to_var. destruct (Req_EM_T 0 0) as [_|H]; [reflexivity|now contradiction H]. }
      rewrite T0. apply (fac_to_var_spread fs (length (slots fs)) K); auto; try lra.
      - unfold fs. now apply logical_sfs_ok.
      - split; [intros x; unfold slots_of; apply filter_length_le|exact HK].
      - intros f' Hf'. apply (spread_ext _ (no_pots f') (no_pots f')); [reflexivity|intros c _; symmetry; now apply Hps|apply spread_zero].
      - intros f' u' Hf' Hu'. eapply spread_ext; [reflexivity| |apply shifted_spread; assumption]. intros s Hs. now apply Hw'.
    Qed.
  End Logical.

  (** ** One update on a graph *)
  Lemma covered_app1 {A} (fs1 fs2 : list (sfactor A)) : covered (fs1 ++ fs2) -> covered fs1.
  Proof.
    intros H f u s Hf Hu Hs. specialize (H f u s). rewrite app_length, arity_app1, var_app1, choices_app1 in H by exact Hf. apply H; auto; lia.
  Qed.
  Section Graph.
    Context (G : per_type (list (fgroup R))).
    Hypothesis Hwf : wf_groups G.
    Let fs := graph_factors 0%R G.
    Let fsE := enum_factors G.
    Let ne := length fsE.
    Let vO := logical_factors TOr G.
    Let vA := logical_factors TAnd G.
    Let fsO := map (logical_sf 0%R TOr) vO.
    Let fsA := map (logical_sf 0%R TAnd) vA.
    Context (junk : nat -> Z) (g : fgraph R) (st : fg_state R).
    Hypothesis HG : gr_groups g = G.
    Hypothesis Hst : compile_fg_state junk g = Ok st.
    Context (lp vt : list R).
    Hypothesis Hvt : length vt = total_states fs.
    Hypothesis Hlp : total_configs fsE <= length lp.
    Let v := read_msgs fs vt.
    Let pots := graph_pots G lp.
    Context (V P : R) (D K : nat).
    Hypothesis HV : (0 <= V)%R.
    Hypothesis HvV : forall f u s, f < length fs -> u < arity fs f -> s < snd (var_at fs f u) -> (Rabs (v f u s) <= V)%R.
    Hypothesis HP : (0 <= P)%R.
    Hypothesis HpP : forall f c, f < ne -> c < length (sf_configs (factor_at fs f)) -> (Rabs (pots f c) <= P)%R.
    Hypothesis Hdeg : degrees fs D K.
    Hypothesis Hcov : covered fs.
    Hypothesis HM : (P + (INR K + 2) * (2 * V + 3 * e) <= M)%R.
    Hypothesis Hfl : (P + (INR K + 2) * (2 * V + 3 * e) < 100000)%R.

    Lemma pass_near : let new := read_msgs fs (@pass_fac_to_var_messages R N st 0%R lp vt) in
      msgs_spread fs new (fac_to_var fs pots 0%R v) (2 * ((INR K + 2) * e) + INR (K - 1) * e)%R /\
      forall f u s, f < length fs -> u < arity fs f -> s < snd (var_at fs f u) -> (Rabs (new f u s) <= P + (INR K + 2) * (2 * V + 3 * e))%R.
    Proof.
      assert (Efs : fs = fsE ++ fsO ++ fsA) by (unfold fs; apply graph_fs).
      pose proof (pos_INR K) as PK. assert (KV : (0 <= INR K * V)%R) by (apply Rmult_le_pos; lra). assert (Ke : (0 <= INR K * e)%R) by (apply Rmult_le_pos; lra).
      pose proof (pos_INR (K - 1)) as PK1. assert (Ke1 : (0 <= INR (K - 1) * e)%R) by (apply Rmult_le_pos; lra).
      assert (Hvt' := Hvt). rewrite Efs in Hvt'. rewrite !total_states_app in Hvt'.
      set (vE := firstn (total_states fsE) vt). set (vO' := firstn (total_states fsO) (skipn (total_states fsE) vt)).
      set (vA' := skipn (total_states fsO) (skipn (total_states fsE) vt)).
      assert (Ev : vt = vE ++ vO' ++ vA') by (unfold vE, vO', vA'; now rewrite !firstn_skipn).
      assert (LE : length vE = total_states fsE) by (unfold vE; rewrite firstn_length; lia).
      assert (LO : length vO' = total_states fsO) by (unfold vO'; rewrite firstn_length, skipn_length; lia).
      assert (LA : length vA' = total_states fsA) by (unfold vA'; rewrite !skipn_length; lia).
      assert (VE : msg_eq fsE (read_msgs fsE vE) v).
      { intros f u s Hf Hu Hs. unfold v. rewrite Efs, Ev. symmetry. now apply read_app1. }
      assert (VO : forall f u s, f < length fsO -> u < arity fsO f -> s < snd (var_at fsO f u) -> read_msgs fsO vO' f u s = v (ne + f) u s).
      { intros f u s Hf Hu Hs. unfold v. rewrite Efs, Ev. unfold ne. rewrite read_app2 by exact LE. symmetry. now apply read_app1. }
      assert (VA : forall f u s, read_msgs fsA vA' f u s = v (ne + (length fsO + f)) u s).
      { intros f u s. unfold v. rewrite Efs, Ev. unfold ne. rewrite read_app2 by exact LE. now rewrite read_app2 by exact LO. }
      assert (okOA : configs_ok fsO /\ configs_ok fsA).
      { pose proof (graph_sf_ok G Hwf) as H. unfold graph_factors in H. rewrite !Forall_app in H. split; apply configs_ok_iff; apply H. }
      destruct okOA as [okO okA].
      assert (Hp : forall f c, pots (length fsE + f) c = 0%R).
      { intros f' c. unfold pots, graph_pots. fold fsE. destruct (Nat.ltb_spec (length fsE + f') (length fsE)); [lia|reflexivity]. }
      pose proof (pass_split_N N G Hwf junk g st HG Hst 0%R lp vE vO' vA' LE LO LA) as Esp. rewrite <- Ev in Esp. fold fsE vO vA in Esp.
      set (NE := @pass_enum_fac_to_var_messages R N _ _ _ _ _) in Esp.
      set (NO := @pass_logical_fac_to_var_messages R N vO' _ _ _ _) in Esp. set (NA := @pass_logical_fac_to_var_messages R N vA' _ _ _ _) in Esp.
      assert (LNE : length NE = total_states fsE) by (unfold NE; now rewrite pass_enum_length_N).
      assert (LNO : length NO = total_states fsO) by (unfold NO; now rewrite pass_logical_length_N).
      rewrite Esp. cbv zeta.
      assert (Main : forall f u, f < length fs -> u < arity fs f ->
        spread (snd (var_at fs f u)) (read_msgs fs (NE ++ NO ++ NA) f u) (fac_to_var fs pots 0%R v f u) (2 * ((INR K + 2) * e) + INR (K - 1) * e)%R /\
        forall s, s < snd (var_at fs f u) -> (Rabs (read_msgs fs (NE ++ NO ++ NA) f u s) <= P + (INR K + 2) * (2 * V + 3 * e))%R).
      2:{ split; [intros f u Hf Hu; apply (proj1 (Main f u Hf Hu))|intros f u s Hf Hu; now apply (proj2 (Main f u Hf Hu))]. }
      assert (T0 : forall (F : list (sfactor R)) ps w, fac_to_var F ps 0%R w = fac_to_var_max F ps w).
      { intros F ps w. unfold fac_to_var. destruct (Req_EM_T 0 0) as [_|H]; [reflexivity|now contradiction H]. }
      assert (HdegK := proj2 Hdeg).
      rewrite Efs in HvV, HpP, HdegK, Hcov |- *. clear Esp.
      intros f u Hf Hu. destruct (Nat.lt_ge_cases f ne) as [Hfe|Hfe].
      - rewrite arity_app1 in Hu by exact Hfe. rewrite var_app1 by exact Hfe.
        set (lpE := slice lp 0 (total_configs fsE)) in *.
        assert (LlpE : length lpE = total_configs fsE) by (unfold lpE; rewrite slice_length; lia).
        assert (PE : forall f c, f < ne -> c < length (sf_configs (factor_at fsE f)) -> read_pots fsE lpE f c = pots f c).
        { intros f' c Hf' Hc. unfold pots, graph_pots. fold fsE. fold ne. destruct (Nat.ltb_spec f' ne); [|lia]. unfold read_pots, lpE.
          rewrite nth_slice; [reflexivity|]. pose proof (first_config_lt fsE f' c Hf' Hc). unfold total_configs. lia. }
        assert (Hnear : forall s, s < snd (var_at fsE f u) ->
          (Rabs (read_msgs fsE NE f u s - fac_to_var_max fsE (read_pots fsE lpE) (read_msgs fsE vE) f u s) <= (INR K + 2) * e)%R /\
          (Rabs (read_msgs fsE NE f u s) <= INR K * (V + e) + P + e + V + e)%R).
        { intros s Hs. apply (enum_near fsE (enum_configs_ok G Hwf) vE lpE LE LlpE V P K HV); auto; try lra.
          - intros f' u' s' Hf' Hu' Hs'. rewrite VE by assumption. apply HvV; [rewrite app_length; lia|now rewrite arity_app1|now rewrite var_app1].
          - intros f' c Hf' Hc. rewrite PE by assumption. apply HpP; [exact Hf'|]. unfold factor_at in *. now rewrite app_nth1 by exact Hf'.
          - intros f' Hf'. specialize (HdegK f'). rewrite app_length, arity_app1 in HdegK by exact Hf'. apply HdegK. lia.
          - now apply (covered_app1 fsE (fsO ++ fsA)). }
        split.
        + apply (spread_mono _ _ _ (2 * ((INR K + 2) * e))%R); [lra|]. apply spread_near. intros s Hs. rewrite read_app1 by assumption.
          rewrite T0, <- T0, fac_to_var_app1, T0 by exact Hfe.
          pose proof (proj1 (Hnear s Hs)) as Q. rewrite <- T0 in Q.
          rewrite (fac_to_var_cong fsE _ (enum_configs_ok G Hwf) 0%R _ v VE f u s Hfe Hu Hs), T0 in Q.
          rewrite <- !T0 in *. rewrite (fac_to_var_pots fsE (read_pots fsE lpE) pots) in Q; [exact Q|]. intros c Hc. now apply PE.
        + intros s Hs. rewrite read_app1 by assumption. eapply Rle_trans; [apply (Hnear s Hs)|]. lra.
      - replace f with (ne + (f - ne)) in * by lia. set (f1 := f - ne) in *. clearbody f1. unfold ne in *.
        rewrite app_length in Hf. rewrite arity_app2 in Hu. rewrite var_app2.
        destruct (Nat.lt_ge_cases f1 (length fsO)) as [Hfo|Hfo].
        + rewrite arity_app1 in Hu by exact Hfo. rewrite var_app1 by exact Hfo.
          assert (HvO : forall f u s, f < length fsO -> u < arity fsO f -> s < snd (var_at fsO f u) -> (Rabs (read_msgs fsO vO' f u s) <= V)%R).
          { intros f' u' s' Hf' Hu' Hs'. rewrite VO by assumption. apply HvV; [rewrite !app_length; lia|now rewrite arity_app2, arity_app1|now rewrite var_app2, var_app1]. }
          assert (HKO : forall f, f < length fsO -> arity fsO f <= K).
          { intros f' Hf'. specialize (HdegK (length fsE + f')). rewrite !app_length, arity_app2, arity_app1 in HdegK by exact Hf'. apply HdegK. lia. }
          pose proof (logical_ok_type G Hwf TOr ltac:(discriminate)) as lokO.
          assert (covO : covered fsO).
          { intros f' u' s' Hf' Hu' Hs'. specialize (Hcov (length fsE + f') u' s'). rewrite !app_length, arity_app2, arity_app1, var_app2, var_app1, choices_app2, choices_app1 in Hcov by exact Hf'. apply Hcov; auto; lia. }
          destruct (logical_spread 0%R TOr vO lokO ltac:(discriminate) vO' LO V K HV HvO HKO ltac:(lra) ltac:(lra) (fun f => pots (length fsE + f)) (fun f => v (length fsE + f)) covO ltac:(intros; apply Hp) VO f1 u Hfo Hu) as [S1 S2].
          fold fsO in S1, S2. cbn [relevant_state type_offset] in S1, S2. fold NO in S1, S2. split.
          * eapply spread_ext; [| |exact S1].
            { intros s Hs. symmetry. rewrite read_app2 by exact LNE. now apply read_app1. }
            { intros s Hs. symmetry. now rewrite fac_to_var_app2, fac_to_var_app1 by exact Hfo. }
          * intros s Hs. rewrite read_app2 by exact LNE. rewrite read_app1 by assumption. eapply Rle_trans; [apply (S2 s Hs)|]. lra.
        + replace f1 with (length fsO + (f1 - length fsO)) in * by lia. set (f2 := f1 - length fsO) in *. clearbody f2.
          rewrite app_length in Hf. rewrite arity_app2 in Hu. rewrite var_app2. assert (Hfa : f2 < length fsA) by lia.
          assert (HvA : forall f u s, f < length fsA -> u < arity fsA f -> s < snd (var_at fsA f u) -> (Rabs (read_msgs fsA vA' f u s) <= V)%R).
          { intros f' u' s' Hf' Hu' Hs'. rewrite VA by assumption. apply HvV; [rewrite !app_length; lia|now rewrite !arity_app2|now rewrite !var_app2]. }
          assert (HKA : forall f, f < length fsA -> arity fsA f <= K).
          { intros f' Hf'. specialize (HdegK (length fsE + (length fsO + f'))). rewrite !app_length, !arity_app2 in HdegK. apply HdegK. lia. }
          pose proof (logical_ok_type G Hwf TAnd ltac:(discriminate)) as lokA.
          assert (covA : covered fsA).
          { intros f' u' s' Hf' Hu' Hs'. specialize (Hcov (length fsE + (length fsO + f')) u' s'). rewrite !app_length, !arity_app2, !var_app2, !choices_app2 in Hcov. apply Hcov; auto; lia. }
          destruct (logical_spread 0%R TAnd vA lokA ltac:(discriminate) vA' LA V K HV HvA HKA ltac:(lra) ltac:(lra) (fun f => pots (length fsE + (length fsO + f))) (fun f => v (length fsE + (length fsO + f))) covA ltac:(intros; apply Hp) ltac:(intros; apply VA) f2 u Hfa Hu) as [S1 S2].
          assert (ENA : NA = @pass_logical_fac_to_var_messages R N vA' (lf_parents 1 vA) (lf_children 1 vA) (-1) 0%R).
          { unfold NA. destruct vA as [|v0 vr] eqn:EvA; [cbn in Hfa; lia|reflexivity]. }
          fold fsA in S1, S2. cbn [relevant_state type_offset] in S1, S2. rewrite <- ENA in S1, S2. split.
          * eapply spread_ext; [| |exact S1].
            { intros s Hs. symmetry. rewrite read_app2 by exact LNE. now apply read_app2. }
            { intros s Hs. symmetry. now rewrite !fac_to_var_app2. }
          * intros s Hs. rewrite read_app2 by exact LNE. rewrite read_app2 by exact LNO. eapply Rle_trans; [apply (S2 s Hs)|]. lra.
    Qed.
  End Graph.

  (** ** Iterations *)
  Section Run.
    Context (vgs : list vgroup) (g : fgraph R) (c : bp_ctx R).
    Hypothesis Hok : groups_ok vgs.
    Hypothesis Hr : reachable vgs g.
    Hypothesis Hwf : wf_groups (gr_groups g).
    Hypothesis Hbp : bp_of g 0%R c.
    Let fs := graph_factors 0%R (gr_groups g).
    Let ne := length (enum_factors (gr_groups g)).
    Let starts0 := gr_vars_to_starts g.
    Let lens := map snd (sf_edges fs).
    Context (a : bp_arrays R).
    Hypothesis Ha : arrays_of c a.
    Let pots := graph_pots (gr_groups g) (ba_log_potentials a).
    Let evs := read_ev starts0 (ba_evidence a).
    Let m0 := read_msgs fs (ba_ftov_msgs a).
    Context (D K : nat) (B P L : R).
    Hypothesis Hsz : sized fs ne pots evs m0 D K B P L e.
    Hypothesis HM : (4 * L <= M)%R.
    Hypothesis Hsup : supported lens.
    Context (d : R).
    Hypothesis Hd : (0 <= d <= 1)%R.
    Let q := rnd (1 - d)%R.
    Let d' := (1 - q)%R.
    Let V := (B + (INR D + 1) * (1000 + e))%R.
    Let rr n := read_msgs fs (ba_ftov_msgs (run_rounded rnd ex lg c a n d)).
    Let tt n := text_bp fs pots 0%R d' evs m0 n.

    Lemma q_bounds : (0 <= q <= 1)%R.
    Proof.
      unfold q. split.
      - rewrite <- (rnd_0 rnd Hrd). apply (rnd_mono rnd Hrd). lra.
      - pose proof (rnd_Z rnd Hrd 1 ltac:(lia)) as E. cbn in E. rewrite <- E. apply (rnd_mono rnd Hrd). lra.
    Qed.
    Lemma size_facts : (0 <= INR D)%R /\ (0 <= INR K)%R /\ (0 <= INR D * e)%R /\ (0 <= INR K * e)%R /\ (0 <= V)%R /\ (0 <= INR K * V)%R /\
      (P + (INR K + 2) * (2 * V + 3 * e) <= L)%R /\ (4000 <= L <= 50000)%R /\ (0 <= P)%R /\ (0 <= B)%R /\ (B + INR D * (1000 + e) + 1000 <= L)%R.
    Proof.
      destruct Hsz as [_ [_ [HB [HP [_ [_ [_ [H1 H2]]]]]]]]. pose proof (pos_INR D) as PD. pose proof (pos_INR K) as PK.
      assert (De : (0 <= INR D * e)%R) by (apply Rmult_le_pos; lra). assert (Ke : (0 <= INR K * e)%R) by (apply Rmult_le_pos; lra).
      assert (HV : (1000 <= V)%R) by (unfold V; lra). assert (KV : (0 <= INR K * V)%R) by (apply Rmult_le_pos; lra).
      fold V in H1. assert (E : (P + (INR K + 2) * (2 * V + 3 * e) = P + 2 * (INR K * V) + 3 * (INR K * e) + 4 * V + 6 * e)%R) by ring.
      repeat split; try lra. unfold V in E, H1, HV, KV. lra.
    Qed.
    Lemma positive_fs f u : f < length fs -> u < arity fs f -> 0 < snd (var_at fs f u).
    Proof. now apply positive_states. Qed.

    Lemma normalize_near x U : length x = total_states fs -> above_floor lens x -> (2 * U <= M)%R ->
      (forall f u s, f < length fs -> u < arity fs f -> s < snd (var_at fs f u) -> (Rabs (read_msgs fs x f u s) <= U)%R) ->
      msgs_near fs (read_msgs fs (@normalize_and_clip_msgs R N x lens (nat_max lens))) (normal fs (read_msgs fs x)) e.
    Proof.
      intros Hx Hfl HU Hb f u s Hf Hu Hs. assert (Hx' : list_sum lens = length x) by (now symmetry).
      destruct (slot_edge fs f u s Hf Hu Hs) as [Es [He' En]]. fold lens in Es, He', En.
      unfold read_msgs at 1. rewrite Es, (nth_normalize_rounded rnd ex lg) by (auto; now rewrite En).
      destruct (C30_correct_lemma x lens (nat_max lens) Hx' (supported_bounds lens Hsup)) as [_ C]; [rewrite <- Hx'; apply Hsup|].
      rewrite (proj1 (C _ He') (Hfl _ He')).
      unfold normal. unfold lens at 2. rewrite segment_slot by (auto; now apply positive_fs).
      rewrite <- Es. fold (read_msgs fs x f u s).
      set (mx := rmaxs _).
      assert (Bm : (Rabs mx <= U)%R).
      { assert (I : In mx (map (read_msgs fs x f u) (seq 0 (snd (var_at fs f u))))).
        { apply rmaxs_In. pose proof (positive_fs f u Hf Hu) as Hp. destruct (snd (var_at fs f u)); [lia|discriminate]. }
        apply in_map_iff in I. destruct I as [s' [<- Hi]]. apply in_seq in Hi. apply Hb; auto; lia. }
      pose proof (Hb f u s Hf Hu Hs) as Bx. apply Rabs_between in Bm. apply Rabs_between in Bx.
      destruct (rnd_near (read_msgs fs x f u s - mx) (2 * U)%R) as [N1 _]; [apply Rabs_le; lra|exact HU|].
      apply Rabs_between in N1. apply Rabs_le. apply Rmax_between. lra.
    Qed.

    Lemma rr_length n : length (ba_ftov_msgs (run_rounded rnd ex lg c a n d)) = total_states fs /\ length (before_normalising rnd ex lg c a d n) = total_states fs.
    Proof. destruct (rounded_sizes rnd ex lg g 0%R c Hwf Hbp a Ha d n) as [L1 [L2 _]]. split; symmetry; assumption. Qed.
    Lemma rr_interval n f u s : f < length fs -> u < arity fs f -> s < snd (var_at fs f u) -> (-1000 <= rr n f u s <= 0)%R.
    Proof. intros Hf Hu Hs. now apply (C47_interval_lemma rnd ex lg Hrd g 0%R c Hwf Hbp a Ha d n Hsup). Qed.
    Lemma rr_normalize n : ba_ftov_msgs (run_rounded rnd ex lg c a n d) = @normalize_and_clip_msgs R N (before_normalising rnd ex lg c a d n) lens (nat_max lens).
    Proof. destruct (rounded_sizes rnd ex lg g 0%R c Hwf Hbp a Ha d n) as [_ [_ [E1 [E2 _]]]]. rewrite run_rounded_before, E1, E2. reflexivity. Qed.

    (** The new messages of an iteration. *)
    Lemma new_near n : let new := read_msgs fs (new_rounded rnd ex lg c a (ba_ftov_msgs (run_rounded rnd ex lg c a n d))) in
      msgs_spread fs new (fac_to_var fs pots 0%R (var_to_fac fs evs (rr n))) ((2 * (INR K + 2) + INR (K - 1) * (2 * INR D + 3)) * e)%R /\
      forall f u s, f < length fs -> u < arity fs f -> s < snd (var_at fs f u) -> (Rabs (new f u s) <= L)%R.
    Proof.
      cbv zeta. destruct size_facts as [PD [PK [De [Ke [HV [KV [S1 [S2 [HP [HB S3]]]]]]]]]].
      destruct Hsz as [Hdeg [Hcov [_ [_ [HevB [HpP _]]]]]].
      destruct (arrays_lengths vgs g 0%R c Hok Hr Hwf Hbp a Ha) as [L1 [_ L3]].
      destruct (ctx_fields vgs g 0%R c Hok Hr Hwf Hbp) as [F1 [F2 [F3 [F4 _]]]]. destruct (ctx_state g 0%R c Hbp) as [junk Hst].
      unfold new_rounded. fold N. cbv zeta. rewrite F1.
      destruct (rr_length n) as [Ll _]. set (old := ba_ftov_msgs (run_rounded rnd ex lg c a n d)) in *.
      set (vt := @pass_var_to_fac_messages R N old (ba_evidence a) (bc_var_states_for_edges c)).
      assert (Lvs : length (bc_var_states_for_edges c) = total_states fs) by (rewrite F4, edge_var_states_length; reflexivity).
      assert (Lvt : length vt = total_states fs) by (unfold vt, pass_var_to_fac_messages, vsub; rewrite map2_length, gather_length, Lvs, Ll; lia).
      pose proof (graph_layout vgs g 0%R c Hok Hr Hwf Hbp) as Hlay. fold fs starts0 in Hlay.
      assert (Hv : forall f u s, f < length fs -> u < arity fs f -> s < snd (var_at fs f u) ->
        (Rabs (read_msgs fs vt f u s - var_to_fac fs evs (rr n) f u s) <= (INR D + 1) * e)%R /\ (Rabs (read_msgs fs vt f u s) <= V)%R).
      { intros f u s Hf Hu Hs. unfold vt. rewrite F4.
        apply (vtof_near fs starts0 (gr_num_var_states g) old (ba_evidence a) Hlay Ll ltac:(lia) B D HevB (proj1 Hdeg) (rr_interval n) ltac:(lra)); assumption. }
      destruct (pass_near (gr_groups g) Hwf junk g _ eq_refl Hst (ba_log_potentials a) vt Lvt L1 V P D K HV ltac:(intros; now apply Hv) HP HpP Hdeg Hcov ltac:(lra) ltac:(lra)) as [Q1 Q2].
      fold fs pots in Q1, Q2. split; [|intros f u s Hf Hu Hs; eapply Rle_trans; [now apply Q2|exact S1]].
      intros f u Hf Hu. pose proof (pos_INR (K - 1)) as PK1.
      replace ((2 * (INR K + 2) + INR (K - 1) * (2 * INR D + 3)) * e)%R with ((2 * ((INR K + 2) * e) + INR (K - 1) * e) + (0 + INR (K - 1) * (2 * ((INR D + 1) * e))))%R by ring.
      eapply spread_trans; [apply Q1; assumption|].
      apply (fac_to_var_spread fs D K); auto; try lra.
      - now apply graph_configs_ok.
      - intros f' Hf'. apply spread_zero.
      - intros f' u' Hf' Hu'. apply spread_near. intros s' Hs'. now apply Hv.
    Qed.

    Lemma before_near n :
      let b := read_msgs fs (before_normalising rnd ex lg c a d (S n)) in
      msgs_near fs b (damp d' (rr n) (read_msgs fs (new_rounded rnd ex lg c a (ba_ftov_msgs (run_rounded rnd ex lg c a n d))))) (3 * e)%R /\
      forall f u s, f < length fs -> u < arity fs f -> s < snd (var_at fs f u) -> (Rabs (b f u s) <= L + 2000 + 3 * e)%R.
    Proof.
      cbv zeta. destruct (new_near n) as [_ Hn]. destruct (rr_length n) as [Ll _]. pose proof q_bounds as Hq.
      destruct size_facts as [_ [_ [_ [_ [_ [_ [_ [S2 _]]]]]]]].
      destruct (ctx_fields vgs g 0%R c Hok Hr Hwf Hbp) as [_ [_ [_ [F4 _]]]].
      set (old := ba_ftov_msgs (run_rounded rnd ex lg c a n d)) in *.
      assert (Ln : length (new_rounded rnd ex lg c a old) = length old).
      { apply new_rounded_length. rewrite F4, edge_var_states_length. symmetry. exact Ll. }
      assert (E : forall f u s, f < length fs -> u < arity fs f -> s < snd (var_at fs f u) ->
        let x := rr n f u s in let y := read_msgs fs (new_rounded rnd ex lg c a old) f u s in
        read_msgs fs (before_normalising rnd ex lg c a d (S n)) f u s = rnd (x + rnd (q * rnd (y - x)))%R).
      { intros f u s Hf Hu Hs. cbv zeta. unfold read_msgs at 1. cbn [before_normalising]. fold old.
        assert (Hi := slot_index_lt fs f u s Hf Hu Hs). unfold total_states in Ll.
        rewrite (nth_map2 _ _ _ _ 0%R 0%R 0%R) by (rewrite ?Ln; unfold total_states in *; lia). reflexivity. }
      assert (Main : forall f u s, f < length fs -> u < arity fs f -> s < snd (var_at fs f u) ->
        let x := rr n f u s in let y := read_msgs fs (new_rounded rnd ex lg c a old) f u s in
        (Rabs (rnd (x + rnd (q * rnd (y - x))) - (d' * x + (1 - d') * y)) <= 3 * e)%R /\ (Rabs (rnd (x + rnd (q * rnd (y - x)))) <= L + 2000 + 3 * e)%R).
      { intros f u s Hf Hu Hs. cbv zeta. pose proof (Hn f u s Hf Hu Hs) as By. pose proof (rr_interval n f u s Hf Hu Hs) as Bx.
        set (x := rr n f u s) in *. set (y := read_msgs fs (new_rounded rnd ex lg c a old) f u s) in *. apply Rabs_between in By.
        destruct (rnd_near (y - x) (L + 1000)%R) as [N1 N2]; [apply Rabs_le; lra|lra|]. set (w := rnd (y - x)) in *.
        destruct (rnd_near (q * w) (L + 1000 + e)%R) as [N3 N4].
        { rewrite Rabs_mult. rewrite (Rabs_right q) by lra. eapply Rle_trans; [|exact N2]. rewrite <- (Rmult_1_l (Rabs w)) at 2. apply Rmult_le_compat_r; [apply Rabs_pos|lra]. }
        { lra. }
        set (w2 := rnd (q * w)) in *. apply Rabs_between in N4.
        destruct (rnd_near (x + w2) (L + 2000 + 2 * e)%R) as [N5 N6]; [apply Rabs_le; lra|lra|]. apply Rabs_between in N5. apply Rabs_between in N3. apply Rabs_between in N1.
        split; [|eapply Rle_trans; [exact N6|lra]].
        assert (Q1 : (- e <= q * (w - (y - x)) <= e)%R).
        { assert (- e <= - (q * e) /\ q * e <= e)%R by (assert (q * e <= 1 * e)%R by (apply Rmult_le_compat_r; lra); lra).
          assert (q * - e <= q * (w - (y - x)) <= q * e)%R by (split; apply Rmult_le_compat_l; lra). lra. }
        unfold d'. replace ((1 - q) * x + (1 - (1 - q)) * y)%R with (x + q * w - q * (w - (y - x)))%R by ring. apply Rabs_le. lra. }
      split; intros f u s Hf Hu Hs; rewrite E by assumption; now apply Main.
    Qed.

    Lemma initial_near : msgs_near fs (rr 0) (normal fs m0) e.
    Proof.
      destruct size_facts as [_ [_ [_ [_ [_ [_ [_ [S2 _]]]]]]]]. destruct Hsz as [_ [_ [_ [_ [_ [_ [Hm _]]]]]]].
      destruct (rr_length 0) as [_ Lb]. unfold rr. rewrite rr_normalize.
      apply (normalize_near _ L Lb); [|lra|exact Hm].
      apply (above_floor_slots g Hsup _ Lb). intros f u Hf Hu. exists 0. pose proof (positive_fs f u Hf Hu) as Hp. split; [exact Hp|].
      pose proof (Hm f u 0 Hf Hu Hp) as H. apply Rabs_between in H. unfold neg_inf. change (-100000 <= m0 f u 0%nat)%R. lra.
    Qed.
    Lemma above_before n : above_floor lens (before_normalising rnd ex lg c a d n).
    Proof.
      destruct size_facts as [_ [_ [_ [_ [_ [_ [_ [S2 _]]]]]]]]. destruct (rr_length n) as [_ Lb].
      apply (above_floor_slots g Hsup _ Lb). intros f u Hf Hu. exists 0. pose proof (positive_fs f u Hf Hu) as Hp. split; [exact Hp|].
      destruct n as [|n].
      - destruct Hsz as [_ [_ [_ [_ [_ [_ [Hm _]]]]]]]. pose proof (Hm f u 0 Hf Hu Hp) as H. apply Rabs_between in H. unfold neg_inf. change (-100000 <= m0 f u 0%nat)%R. lra.
      - destruct (before_near n) as [_ H]. cbv zeta in H. specialize (H f u 0 Hf Hu Hp). apply Rabs_between in H. unfold neg_inf. fold fs. lra.
    Qed.

    Lemma run_near n : msgs_spread fs (rr n) (tt n) (rounding_drift D K d' n * e)%R /\ msgs_near fs (rr n) (tt n) (rounding_drift D K d' n * e)%R.
    Proof.
      pose proof q_bounds as Hq. assert (Hd' : (0 <= d' <= 1)%R) by (unfold d'; lra).
      destruct Hsz as [Hdeg [Hcov _]]. destruct size_facts as [PD [PK [De [Ke [HV [KV [S1 [S2 [HP [HB S3]]]]]]]]]].
      induction n as [|n [IH _]].
      - cbn [rounding_drift]. pose proof initial_near as H0. split.
        + intros f u Hf Hu. apply spread_near. intros s Hs. now apply H0.
        + intros f u s Hf Hu Hs. eapply Rle_trans; [now apply H0|]. lra.
      - destruct (new_near n) as [N1 N2]. destruct (before_near n) as [B1 B2]. cbv zeta in N1, N2, B1, B2.
        destruct (rr_length (S n)) as [_ Lb].
        pose proof (normalize_near (before_normalising rnd ex lg c a d (S n)) (L + 2000 + 3 * e)%R Lb (above_before (S n)) ltac:(lra) B2) as Z.
        rewrite <- rr_normalize in Z. fold (rr (S n)) in Z.
        set (x := rounding_drift D K d' n) in *. pose proof (rounding_drift_nonneg D K d' n Hd') as Hx. fold x in Hx.
        assert (Hxe : (0 <= x * e)%R) by (apply Rmult_le_pos; lra).
        assert (S4 : msgs_spread fs (read_msgs fs (before_normalising rnd ex lg c a d (S n))) (damp d' (tt n) (fac_to_var fs pots 0%R (var_to_fac fs evs (tt n))))
          (2 * (3 * e) + (d' * (x * e) + (1 - d') * ((2 * (INR K + 2) + INR (K - 1) * (2 * INR D + 3)) * e + (0 + INR (K - 1) * (0 + INR (D - 1) * (x * e))))))%R).
        { intros f u Hf Hu. eapply spread_trans; [apply spread_near; intros s Hs; now apply B1|].
          apply (damp_spread fs); auto. intros f' u' Hf' Hu'. eapply spread_trans; [now apply N1|].
          pose proof (pos_INR (D - 1)).
          apply (fac_to_var_spread fs D K); auto; try lra.
          - now apply graph_configs_ok.
          - rewrite Rplus_0_l. apply Rmult_le_pos; lra.
          - intros f'' Hf''. apply spread_zero.
          - apply (var_to_fac_spread fs D K); auto. intros y _. apply spread_zero. }
        destruct (normal_spread fs _ _ _ positive_fs S4) as [Z1 Z2].
        change (normal fs (damp d' (tt n) (fac_to_var fs pots 0 (var_to_fac fs evs (tt n))))) with (tt (S n)) in Z1, Z2.
        set (w := (2 * (3 * e) + _)%R) in Z1, Z2.
        assert (Ew : (rounding_drift D K d' (S n) * e = 2 * e + w)%R) by (cbn [rounding_drift]; cbv zeta; unfold w, x; ring).
        rewrite Ew. split.
        + intros f u Hf Hu. eapply spread_trans; [apply spread_near; intros s Hs; now apply Z|]. now apply Z1.
        + intros f u s Hf Hu Hs. specialize (Z f u s Hf Hu Hs). specialize (Z2 f u s Hf Hu Hs). apply Rabs_between in Z. apply Rabs_between in Z2. apply Rabs_le. lra.
    Qed.
  End Run.
End Err.
