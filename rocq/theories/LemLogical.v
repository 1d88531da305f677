(** * The messages of logical factors, slot by slot (towards C26-C28). *)
From Verif Require Import NumPy Lists FGraph BP SpecFactor SpecWiring SpecState SpecBP LemNum LemNorm LemVtoF LemEnum LemLogCode.
From Coq Require Import Reals Lra Lia.
Local Open Scope nat_scope.

Section Top.
  Context {A : Type} (z : A) (t : ftype) (vss : list (list variable)).
  Hypothesis Hok : logical_ok vss.
  Hypothesis Ht : t <> TEnum.
  Let fs := map (logical_sf z t) vss.
  Let rs := relevant_state t.
  Let o := 1 - rs.
  Definition par_counts : list nat := map (fun vs : list variable => length vs - 1) vss.
  Let ks := par_counts.
  Let nf := length vss.
  Let k f := nth f ks 0.
  Let pp := positions ks.

  Lemma nf_ks : length ks = nf. Proof. apply map_length. Qed.
  Lemma nf_fs : length fs = nf. Proof. apply map_length. Qed.
  Lemma factor_logical f : f < nf -> factor_at fs f = logical_sf z t (nth f vss []).
  Proof. intros Hf. unfold factor_at, fs. now rewrite (nth_map _ _ _ _ []) by exact Hf. Qed.
  Lemma k_nth f : f < nf -> k f = length (nth f vss []) - 1.
  Proof. intros Hf. unfold k, ks, par_counts. now rewrite (nth_map _ _ _ _ []) by exact Hf. Qed.
  Lemma len_ge2 f : f < nf -> 2 <= length (nth f vss []).
  Proof. intros Hf. apply Hok, nth_In. exact Hf. Qed.
  Lemma k_pos f : f < nf -> 0 < k f.
  Proof. intros Hf. rewrite k_nth by exact Hf. pose proof (len_ge2 f Hf). lia. Qed.
  Lemma arity_logical f : f < nf -> arity fs f = S (k f).
  Proof. intros Hf. unfold arity. rewrite factor_logical, k_nth by exact Hf. cbn [logical_sf sf_vars]. pose proof (len_ge2 f Hf). lia. Qed.
  Lemma states_logical f u : f < nf -> u < arity fs f -> snd (var_at fs f u) = 2.
  Proof.
    intros Hf Hu. unfold arity in Hu. unfold var_at. rewrite factor_logical in * by exact Hf. cbn [logical_sf sf_vars] in *.
    apply (proj2 (Hok (nth f vss []) (nth_In _ _ Hf))). now apply nth_In.
  Qed.
  Lemma edges_logical : sf_edges fs = concat vss.
  Proof. unfold sf_edges, fs. rewrite map_map. cbn [logical_sf sf_vars]. now rewrite map_id. Qed.
  Lemma first_edge_logical f : lf_first_edge vss f = sf_first_edge fs f.
  Proof. unfold lf_first_edge, sf_first_edge, fs. rewrite map_map. reflexivity. Qed.
  Lemma slot_logical f u s : edge_start (concat vss) (lf_first_edge vss f + u) + s = slot_index fs f u s.
  Proof. unfold slot_index. now rewrite edges_logical, first_edge_logical. Qed.
  Lemma rs_o : (rs < 2 /\ o < 2 /\ rs <> o) /\ forall n, (Z.of_nat (n + rs) + type_offset t = Z.of_nat (n + o))%Z.
  Proof. unfold o, rs. destruct t; cbn; split; intros; try (repeat split; lia); try lia. Qed.

  Definition sl (s : nat) (p : nat * nat) : Z := Z.of_nat (slot_index fs (fst p) (snd p) s).
  Definition ch (s : nat) (f : nat) : Z := Z.of_nat (slot_index fs f (k f) s).
  Lemma parents_map : map fst (lf_parents rs vss) = map lab pp /\ map snd (lf_parents rs vss) = map (sl rs) pp.
  Proof.
    assert (E : lf_parents rs vss = map (fun p => (lab p, sl rs p)) pp); [|rewrite E, !map_map; split; reflexivity].
    unfold lf_parents, pp, positions. rewrite nf_ks. rewrite !flat_map_concat_map, concat_map, map_map. f_equal. apply map_ext_in.
    intros f Hf. apply in_seq in Hf. rewrite map_map. fold (k f). rewrite k_nth by lia. apply map_ext. intros u. unfold lab, sl. cbn [fst snd].
    now rewrite slot_logical.
  Qed.
  Lemma children_map : lf_children rs vss = map (ch rs) (seq 0 nf).
  Proof.
    unfold lf_children. apply map_ext_in. intros f Hf. apply in_seq in Hf. unfold ch. rewrite k_nth by lia. now rewrite slot_logical.
  Qed.
  Lemma sl_other p : (sl rs p + type_offset t)%Z = sl o p.
  Proof. unfold sl, slot_index. apply rs_o. Qed.
  Lemma ch_other f : (ch rs f + type_offset t)%Z = ch o f.
  Proof. unfold ch, slot_index. apply rs_o. Qed.

  Context (vt : list R).
  Hypothesis Hvt : length vt = total_states fs.
  Let v := read_msgs fs vt.
  Lemma slot_lt f u s : f < nf -> u <= k f -> s < 2 -> slot_index fs f u s < length vt.
  Proof.
    intros Hf Hu Hs. rewrite Hvt. apply slot_index_lt; [now rewrite nf_fs|rewrite arity_logical by exact Hf; lia|].
    rewrite states_logical; [exact Hs|exact Hf|rewrite arity_logical by exact Hf; lia].
  Qed.
  Lemma In_pp' p : In p pp -> fst p < nf /\ snd p < k (fst p).
  Proof. intros H. apply In_positions in H. rewrite nf_ks in H. exact H. Qed.
  Lemma gather_sl s : s < 2 -> gather 0%R vt (map (sl s) pp) = map (fun p => v (fst p) (snd p) s) pp.
  Proof.
    intros Hs. unfold gather. rewrite map_map. apply map_ext_in. intros p Hp. apply In_pp' in Hp. unfold sl.
    pose proof (slot_lt (fst p) (snd p) s) as L. rewrite gather1_in by lia. now rewrite Nat2Z.id.
  Qed.
  Lemma gather_ch s : s < 2 -> gather 0%R vt (map (ch s) (seq 0 nf)) = map (fun f => v f (k f) s) (seq 0 nf).
  Proof.
    intros Hs. unfold gather. rewrite map_map. apply map_ext_in. intros f Hf. apply in_seq in Hf. unfold ch.
    pose proof (slot_lt f (k f) s) as L. rewrite gather1_in by lia. now rewrite Nat2Z.id.
  Qed.

  (** Differences of the messages, oriented from the relevant to the other state. *)
  Definition pdiff (p : nat * nat) : R := (v (fst p) (snd p) o - v (fst p) (snd p) rs)%R.
  Definition cdiff (f : nat) : R := (v f (k f) o - v f (k f) rs)%R.

  Lemma slot_eq f u s f' u' s' : f < nf -> u <= k f -> s < 2 -> f' < nf -> u' <= k f' -> s' < 2 ->
    slot_index fs f u s = slot_index fs f' u' s' -> f = f' /\ u = u' /\ s = s'.
  Proof.
    intros. apply (slot_index_inj fs); auto; rewrite ?nf_fs, ?arity_logical, ?states_logical; rewrite ?arity_logical; auto; lia.
  Qed.

  (** The same in any arithmetic. *)
  Definition pdiff_N (W : Num R) (p : nat * nat) : R := @nsub R W (v (fst p) (snd p) o) (v (fst p) (snd p) rs).
  Definition cdiff_N (W : Num R) (f : nat) : R := @nsub R W (v f (k f) o) (v f (k f) rs).

  Lemma pass_logical_code_N (W : Num R) T PM CH : @n0 R W = 0%R ->
    (if @neqb R W T 0%R then @logical_max_product R W (map (pdiff_N W) pp) (map (cdiff_N W) (seq 0 nf)) (map lab pp) nf
     else @logical_sum_product R W T (map (pdiff_N W) pp) (map (cdiff_N W) (seq 0 nf)) (map lab pp) nf) = (map PM pp, map CH (seq 0 nf)) ->
    forall f u s, f < nf -> u <= k f -> s < 2 ->
    read_msgs fs (@pass_logical_fac_to_var_messages R W vt (lf_parents rs vss) (lf_children rs vss) (type_offset t) T) f u s
    = if s =? o then (if u <? k f then (if k f =? 1 then cdiff_N W f else PM (f, u)) else CH f) else 0%R.
  Proof.
    intros Hn0 Hpc f u s Hf Hu Hs. unfold pass_logical_fac_to_var_messages.
    destruct parents_map as [-> ->]. rewrite children_map, !map_map, map_length, seq_length.
    rewrite (map_ext _ _ sl_other), (map_ext _ _ ch_other). destruct rs_o as [[Hrs [Ho Hne]] _].
    rewrite !Hn0. rewrite !gather_sl, !gather_ch by assumption.
    unfold vsub. rewrite !map2_map.
    change (map (fun x => @nsub R W (v (fst x) (snd x) o) (v (fst x) (snd x) rs)) pp) with (map (pdiff_N W) pp).
    change (map (fun x => @nsub R W (v x (k x) o) (v x (k x) rs)) (seq 0 nf)) with (map (cdiff_N W) (seq 0 nf)).
    rewrite Hpc. cbn [fst snd]. rewrite <- nf_ks. unfold pp. rewrite bincount_labels, first_elements. rewrite nf_ks.
    assert (K0 : forall g, g < length ks -> 0 < nth g ks 0) by (intros g Hg; rewrite nf_ks in Hg; now apply k_pos).
    replace (gather 0%R (map PM (positions ks)) (map (fun f => pidx ks f 0) (seq 0 nf))) with (map (fun f => PM (f, 0)) (seq 0 nf)).
    2:{ rewrite <- nf_ks. symmetry. apply (gather_par ks 0%R PM (fun _ => 0)). exact K0. }
    rewrite combine_map.
    replace (map2 (fun n cp => if n =? 1 then fst cp else snd cp) ks (map (fun x => (cdiff_N W x, PM (x, 0))) (seq 0 nf)))
      with (map (fun f => if k f =? 1 then cdiff_N W f else PM (f, 0)) (seq 0 nf)).
    2:{ symmetry. apply (map_seq_eq ks); [rewrite map2_length, map_length, seq_length, nf_ks; lia|].
        intros g d Hg. rewrite (nth_map2 _ _ _ _ _ 0 (0%R, 0%R)) by (rewrite ?nf_ks, ?map_length, ?seq_length; exact Hg).
        rewrite nth_map_seq by exact Hg. cbn [Nat.add fst snd]. reflexivity. }
    rewrite <- nf_ks. rewrite (set_par ks PM (fun _ => 0)) by exact K0. rewrite nf_ks.
    set (PM' := fun p => if snd p =? 0 then (if k (fst p) =? 1 then cdiff_N W (fst p) else PM (fst p, 0)) else PM p).
    assert (EPM : forall g w, g < nf -> w < k g -> PM' (g, w) = if k g =? 1 then cdiff_N W g else PM (g, w)).
    { intros g w Hg Hw. unfold PM'. cbn [fst snd]. destruct (Nat.eqb_spec w 0) as [->|Hw0]; [reflexivity|].
      destruct (Nat.eqb_spec (k g) 1); [lia|reflexivity]. }
    unfold read_msgs, scatter_set.
    pose proof (slot_lt f u s Hf Hu Hs) as L.
    rewrite nth_scatter_map; [|intros; unfold ch; lia|rewrite scatter_length, repeat_length; exact L].
    rewrite nth_scatter_map; [|intros; unfold sl; lia|rewrite repeat_length; exact L].
    rewrite nth_repeat_R.
    assert (FP : filter (fun p => (sl o p =? Z.of_nat (slot_index fs f u s))%Z) (positions ks) = if (s =? o) && (u <? k f) then [(f, u)] else []).
    { destruct (Nat.eqb_spec s o) as [Es|Es]; [destruct (Nat.ltb_spec u (k f)) as [Eu|Eu]|]; cbn [andb].
      - subst s. apply filter_unique; [apply NoDup_positions|apply In_positions; rewrite nf_ks; auto|apply Z.eqb_refl|].
        intros [g w] Hp Hq. apply In_pp' in Hp. cbn [fst snd] in Hp. apply Z.eqb_eq in Hq. unfold sl in Hq. cbn [fst snd] in Hq. apply Nat2Z.inj in Hq.
        apply slot_eq in Hq; [|tauto|lia|lia|tauto|lia|lia]. destruct Hq as [-> [-> _]]. reflexivity.
      - apply filter_none. intros [g w] Hp. apply In_pp' in Hp. cbn [fst snd] in Hp. apply Z.eqb_neq. intros Hq. unfold sl in Hq. cbn [fst snd] in Hq. apply Nat2Z.inj in Hq.
        apply slot_eq in Hq; [|tauto|lia|lia|tauto|lia|lia]. destruct Hq as [-> [-> _]]. lia.
      - apply filter_none. intros [g w] Hp. apply In_pp' in Hp. cbn [fst snd] in Hp. apply Z.eqb_neq. intros Hq. unfold sl in Hq. cbn [fst snd] in Hq. apply Nat2Z.inj in Hq.
        apply slot_eq in Hq; [|tauto|lia|lia|tauto|lia|lia]. destruct Hq as [_ [_ E]]. congruence. }
    assert (FC : filter (fun g => (ch o g =? Z.of_nat (slot_index fs f u s))%Z) (seq 0 nf) = if (s =? o) && negb (u <? k f) then [f] else []).
    { destruct (Nat.eqb_spec s o) as [Es|Es]; [destruct (Nat.ltb_spec u (k f)) as [Eu|Eu]|]; cbn [andb negb].
      - apply filter_none. intros g Hg. apply in_seq in Hg. apply Z.eqb_neq. intros Hq. unfold ch in Hq. apply Nat2Z.inj in Hq.
        apply slot_eq in Hq; [|tauto|lia|lia|tauto|lia|lia]. destruct Hq as [-> [E _]]. lia.
      - assert (u = k f) by lia. subst s u. apply filter_unique; [apply seq_NoDup|apply in_seq; lia|apply Z.eqb_refl|].
        intros g Hg Hq. apply in_seq in Hg. apply Z.eqb_eq in Hq. unfold ch in Hq. apply Nat2Z.inj in Hq.
        apply slot_eq in Hq; [tauto|tauto|lia|lia|tauto|lia|lia].
      - apply filter_none. intros g Hg. apply in_seq in Hg. apply Z.eqb_neq. intros Hq. unfold ch in Hq. apply Nat2Z.inj in Hq.
        apply slot_eq in Hq; [|tauto|lia|lia|tauto|lia|lia]. destruct Hq as [_ [_ E]]. congruence. }
    rewrite FP, FC. destruct (s =? o); cbn [andb]; [|reflexivity]. destruct (Nat.ltb_spec u (k f)) as [Eu|Eu]; cbn [negb]; [|reflexivity].
    cbn [map fold_left]. now apply EPM.
  Qed.
  Lemma pass_logical_code T PM CH :
    (if neqb T 0%R then logical_max_product (map pdiff pp) (map cdiff (seq 0 nf)) (map lab pp) nf
     else logical_sum_product T (map pdiff pp) (map cdiff (seq 0 nf)) (map lab pp) nf) = (map PM pp, map CH (seq 0 nf)) ->
    forall f u s, f < nf -> u <= k f -> s < 2 ->
    read_msgs fs (pass_logical_fac_to_var_messages vt (lf_parents rs vss) (lf_children rs vss) (type_offset t) T) f u s
    = if s =? o then (if u <? k f then (if k f =? 1 then cdiff f else PM (f, u)) else CH f) else 0%R.
  Proof. exact (pass_logical_code_N RNum T PM CH eq_refl). Qed.
End Top.
