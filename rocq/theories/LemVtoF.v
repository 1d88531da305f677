(** * Proofs about variable-to-factor messages (C23) and the numbering of slots. *)
From Verif Require Import NumPy Lists FGraph BP SpecWiring SpecState SpecBP LemFGraph LemNum.
From Coq Require Import Reals Lra Lia.
Local Open Scope nat_scope.

(** ** Flat arrays as maps over (segment, offset) pairs *)
Definition positions (lens : list nat) : list (nat * nat) :=
  flat_map (fun e => map (pair e) (seq 0 (nth e lens 0))) (seq 0 (length lens)).
Lemma positions_cons x l : positions (x :: l) = map (pair 0) (seq 0 x) ++ map (fun p => (S (fst p), snd p)) (positions l).
Proof.
  unfold positions. cbn [length seq flat_map nth]. f_equal. rewrite <- seq_shift.
  rewrite flat_map_concat_map, map_map, <- flat_map_concat_map. generalize (seq 0 (length l)). intros k.
  induction k as [|e k IH]; [reflexivity|]. cbn [flat_map]. rewrite map_app, IH. f_equal.
  rewrite map_map. reflexivity.
Qed.
Lemma In_positions lens p : In p (positions lens) <-> fst p < length lens /\ snd p < nth (fst p) lens 0.
Proof.
  unfold positions. rewrite in_flat_map. split.
  - intros [e [He Hp]]. apply in_map_iff in Hp. destruct Hp as [s [<- Hs]]. apply in_seq in He. apply in_seq in Hs. cbn. lia.
  - intros [He Hs]. exists (fst p). split; [apply in_seq; lia|]. apply in_map_iff. exists (snd p). split; [now destruct p|apply in_seq; lia].
Qed.
Lemma flat_as_map (lens : list nat) (a : list R) : length a = list_sum lens ->
  a = map (fun p => nth (off lens (fst p) + snd p) a 0%R) (positions lens).
Proof.
  revert a. induction lens as [|x l IH]; intros a Ha.
  - destruct a; [reflexivity|discriminate].
  - rewrite positions_cons, map_app, !map_map. cbn [list_sum fold_right] in Ha. fold (list_sum l) in Ha.
    rewrite <- (firstn_skipn x a) at 1. f_equal.
    + apply (nth_ext _ _ 0%R 0%R); [rewrite firstn_length, map_length, seq_length; lia|].
      intros k Hk. rewrite firstn_length in Hk. rewrite nth_firstn by lia. rewrite nth_map_seq by lia. cbn [fst snd]. now rewrite off_0.
    + rewrite (IH (skipn x a)) by (rewrite skipn_length; lia). apply map_ext. intros p. cbn [fst snd].
      rewrite off_cons, nth_skipn. f_equal. lia.
Qed.
Lemma edge_var_states_as_map starts0 es :
  edge_var_states starts0 es
  = map (fun p => Z.of_nat (start_of starts0 (nth (fst p) es (0%Z, 0)) + snd p)) (positions (map snd es)).
Proof.
  induction es as [|x es IH]; [reflexivity|]. cbn [map]. rewrite positions_cons, map_app, !map_map. cbn [fst snd nth].
  unfold edge_var_states in *. cbn [flat_map]. f_equal. rewrite IH. apply map_ext. reflexivity.
Qed.
Lemma positions_length lens : length (positions lens) = list_sum lens.
Proof. induction lens as [|x l IH]; [reflexivity|]. rewrite positions_cons, app_length, !map_length, seq_length, IH. reflexivity. Qed.
Lemma edge_var_states_length starts0 es : length (edge_var_states starts0 es) = list_sum (map snd es).
Proof. now rewrite edge_var_states_as_map, map_length, positions_length. Qed.
Lemma nth_positions lens e s d : e < length lens -> s < nth e lens 0 -> nth (off lens e + s) (positions lens) d = (e, s).
Proof.
  revert e. induction lens as [|x l IH]; intros e He Hs; [cbn in He; lia|]. rewrite positions_cons.
  destruct e as [|e].
  - rewrite off_0. cbn [nth] in Hs. rewrite app_nth1 by (rewrite map_length, seq_length; exact Hs). cbn [Nat.add]. now rewrite nth_map_seq.
  - rewrite off_cons. rewrite app_nth2 by (rewrite map_length, seq_length; lia). rewrite map_length, seq_length.
    replace (x + off l e + s - x) with (off l e + s) by lia. cbn [nth length] in *.
    rewrite (nth_map _ _ _ _ d) by (rewrite positions_length; apply off_block_lt; lia). rewrite IH by lia. reflexivity.
Qed.
Lemma nth_edge_var_states starts0 es e s : e < length es -> s < nth e (map snd es) 0 ->
  nth (edge_start es e + s) (edge_var_states starts0 es) 0%Z = Z.of_nat (start_of starts0 (nth e es (0%Z, 0)) + s).
Proof.
  intros He Hs. rewrite edge_var_states_as_map. unfold edge_start.
  rewrite (nth_map _ _ _ _ (0, 0)) by (rewrite positions_length; apply off_block_lt; rewrite ?map_length; assumption).
  rewrite nth_positions by (rewrite ?map_length; assumption). reflexivity.
Qed.
Lemma nth_states es e : e < length es -> nth e (map snd es) 0 = snd (nth e es (0%Z, 0)).
Proof. intros He. now rewrite (nth_map _ _ _ _ (0%Z, 0)) by exact He. Qed.

(** ** C23, by edges *)
Section Edges.
  Context (starts0 : list (variable * nat)) (es : list variable) (n : nat).
  Hypothesis Hlay : disjoint_layout starts0 es n.

  Lemma layout_same x y s t : In x es -> In y es -> s < snd x -> t < snd y ->
    start_of starts0 x + s = start_of starts0 y + t -> x = y /\ s = t.
  Proof.
    intros Hx Hy Hs Ht E. destruct (var_eqb x y) eqn:Exy; [apply var_eqb_eq in Exy; subst y; split; [reflexivity|lia]|].
    assert (x <> y) by (intros ->; rewrite (proj2 (var_eqb_eq y y) eq_refl) in Exy; discriminate).
    destruct (proj2 Hlay x y Hx Hy H); lia.
  Qed.

  (** The sums over the edges of a variable. *)
  Lemma nth_var_sums (msgs ev : list R) x s : length msgs = list_sum (map snd es) -> n <= length ev ->
    In x es -> s < snd x ->
    nth (start_of starts0 x + s) (scatter nadd ev (edge_var_states starts0 es) msgs) 0%R
    = (nth (start_of starts0 x + s) ev 0 + rsum (map (fun e => nth (edge_start es e + s) msgs 0) (edges_of es x)))%R.
  Proof.
    intros Hm Hev Hx Hs. rewrite (flat_as_map _ _ Hm) at 1. rewrite edge_var_states_as_map.
    assert (Hp : start_of starts0 x + s < length ev) by (pose proof (proj1 Hlay x Hx); lia).
    rewrite nth_scatter_add; [|intros; lia|exact Hp]. f_equal.
    assert (E : filter (fun p => Z.eqb (Z.of_nat (start_of starts0 (nth (fst p) es (0%Z, 0)) + snd p)) (Z.of_nat (start_of starts0 x + s))) (positions (map snd es))
                = map (fun e => (e, s)) (edges_of es x)); [|rewrite E, map_map; reflexivity].
    unfold positions, edges_of. rewrite filter_flat_map, map_length, <- flat_map_if. apply flat_map_ext_in.
    intros e He. apply in_seq in He. rewrite nth_states by lia. rewrite filter_map. cbn [fst snd].
    assert (Hie : In (nth e es (0%Z, 0)) es) by (apply nth_In; lia).
    destruct (var_eqb (nth e es (0%Z, 0)) x) eqn:Ex.
    - apply var_eqb_eq in Ex. rewrite Ex.
      rewrite (filter_ext _ (fun t => t =? s)); [now rewrite filter_seq_eq|].
      intros t. destruct (Nat.eqb_spec t s); [subst; apply Z.eqb_refl|apply Z.eqb_neq; lia].
    - rewrite filter_none; [reflexivity|]. intros t Ht. apply in_seq in Ht. apply Z.eqb_neq. intros F.
      destruct (layout_same (nth e es (0%Z, 0)) x t s) as [F1 F2]; auto; try lia.
      rewrite F1, (proj2 (var_eqb_eq x x) eq_refl) in Ex. discriminate.
  Qed.

  Lemma edges_of_lt x e : In e (edges_of es x) -> e < length es /\ nth e es (0%Z, 0) = x.
  Proof. unfold edges_of. intros H. apply filter_In in H. destruct H as [H1 H2]. apply in_seq in H1. apply var_eqb_eq in H2. split; [lia|exact H2]. Qed.

  Lemma rsum_remove (f : nat -> R) l e : NoDup l -> In e l ->
    rsum (map f l) = (f e + rsum (map f (filter (fun e' => negb (e' =? e)) l)))%R.
  Proof.
    induction l as [|x l IH]; intros Hn Hi; [destruct Hi|]. inversion Hn as [|? ? Hx Hl]; subst. cbn [map filter].
    destruct Hi as [->|Hi].
    - rewrite Nat.eqb_refl. cbn [negb]. rewrite rsum_cons. f_equal. f_equal. f_equal. symmetry.
      clear -Hx. induction l as [|y l IH]; [reflexivity|]. cbn [filter].
      destruct (Nat.eqb_spec y e); [subst; exfalso; apply Hx; now left|]. cbn [negb]. f_equal. apply IH. intros F. apply Hx. now right.
    - destruct (Nat.eqb_spec x e); [subst; contradiction|]. cbn [negb map]. rewrite !rsum_cons, IH by assumption. lra.
  Qed.

  Lemma var_to_fac_edges (msgs ev : list R) e s : length msgs = list_sum (map snd es) -> n <= length ev ->
    e < length es -> s < nth e (map snd es) 0 ->
    let x := nth e es (0%Z, 0) in
    nth (edge_start es e + s) (pass_var_to_fac_messages msgs ev (edge_var_states starts0 es)) 0%R
    = (nth (start_of starts0 x + s) ev 0
       + rsum (map (fun e' => nth (edge_start es e' + s) msgs 0) (filter (fun e' => negb (e' =? e)) (edges_of es x))))%R.
  Proof.
    intros Hm Hev He Hs x. pose proof (off_block_lt (map snd es) e s) as Hb. rewrite map_length in Hb. specialize (Hb He Hs).
    fold (edge_start es e) in Hb. unfold pass_var_to_fac_messages, vsub.
    assert (Hx : In x es) by (apply nth_In; exact He). assert (Hsx : s < snd x) by (unfold x; rewrite <- nth_states; assumption).
    rewrite (nth_map2 _ _ _ _ _ 0%R 0%R) by (rewrite ?gather_length, ?edge_var_states_length; lia).
    rewrite nsub_R. change (@n0 R _) with 0%R.
    rewrite nth_gather; rewrite ?edge_var_states_length; [|exact Hb|].
    2:{ rewrite nth_edge_var_states by assumption. rewrite scatter_length. fold x. pose proof (proj1 Hlay x Hx). lia. }
    rewrite nth_edge_var_states by assumption. rewrite Nat2Z.id. fold x. rewrite nth_var_sums by assumption.
    rewrite (rsum_remove _ _ e); [lra| |].
    - unfold edges_of. apply NoDup_filter, seq_NoDup.
    - unfold edges_of. apply filter_In. split; [apply in_seq; lia|]. now apply var_eqb_eq.
  Qed.
End Edges.

(** ** Slots and edges *)
Section Slots.
  Context {A : Type} (fs : list (sfactor A)).
  Definition edge_no (fu : nat * nat) : nat := sf_first_edge fs (fst fu) + snd fu.
  Let ars := map (fun F => length (sf_vars F)) fs.

  Lemma arity_nth f : f < length fs -> arity fs f = nth f ars 0.
  Proof. intros Hf. unfold ars. rewrite (nth_map _ _ _ _ (SF [] [] [])) by exact Hf. reflexivity. Qed.
  Lemma slots_positions : slots fs = positions ars.
  Proof.
    unfold slots, positions. unfold ars at 2. rewrite map_length. apply flat_map_ext_in. intros f Hf. apply in_seq in Hf.
    rewrite arity_nth by lia. reflexivity.
  Qed.
  Lemma In_slots fu : In fu (slots fs) <-> fst fu < length fs /\ snd fu < arity fs (fst fu).
  Proof.
    rewrite slots_positions, In_positions. unfold ars at 1. rewrite map_length. split; intros [H1 H2]; (split; [exact H1|]).
    - now rewrite arity_nth.
    - now rewrite arity_nth in H2.
  Qed.
  Lemma sf_edges_length : length (sf_edges fs) = list_sum ars.
  Proof. unfold sf_edges, ars. rewrite concat_length, map_map. reflexivity. Qed.
  Lemma edges_slots : map edge_no (slots fs) = seq 0 (length (sf_edges fs)).
  Proof.
    rewrite slots_positions, sf_edges_length. apply (nth_ext _ _ 0 0); [rewrite map_length, positions_length, seq_length; reflexivity|].
    intros k Hk. rewrite map_length, positions_length in Hk. rewrite seq_nth by exact Hk.
    destruct (off_split ars k Hk) as [f [u [Hf [Hu ->]]]].
    rewrite (nth_map _ _ _ _ (0, 0)) by (rewrite positions_length; exact Hk). rewrite nth_positions by assumption. reflexivity.
  Qed.
  Lemma edge_no_lt fu : In fu (slots fs) -> edge_no fu < length (sf_edges fs).
  Proof.
    intros H. assert (Hi : In (edge_no fu) (map edge_no (slots fs))) by now apply in_map.
    rewrite edges_slots in Hi. apply in_seq in Hi. lia.
  Qed.
  Lemma edge_var f u : f < length fs -> u < arity fs f -> nth (sf_first_edge fs f + u) (sf_edges fs) (0%Z, 0) = var_at fs f u.
  Proof.
    intros Hf Hu. unfold sf_first_edge, first_edge, sf_edges, var_at, factor_at.
    rewrite <- (map_map sf_vars (@length variable)). rewrite nth_concat.
    - rewrite (nth_map _ _ _ _ (SF [] [] [])) by exact Hf. reflexivity.
    - now rewrite map_length.
    - rewrite (nth_map _ _ _ _ (SF [] [] [])) by exact Hf. exact Hu.
  Qed.
  Lemma edge_no_inj a b : In a (slots fs) -> In b (slots fs) -> edge_no a = edge_no b -> a = b.
  Proof.
    intros Ha Hb E. apply In_slots in Ha. apply In_slots in Hb. destruct a as [f u], b as [f' u']. cbn [fst snd] in *.
    unfold edge_no, sf_first_edge, first_edge in E. cbn [fst snd] in E. fold ars in E.
    destruct (off_inj ars f u f' u') as [E1 E2]; auto; try (unfold ars; rewrite map_length; tauto).
    - rewrite <- arity_nth; tauto.
    - rewrite <- arity_nth; tauto.
  Qed.
  Lemma slots_of_edges x : edges_of (sf_edges fs) x = map edge_no (slots_of fs x).
  Proof.
    unfold edges_of, slots_of. rewrite <- edges_slots, filter_map. f_equal. apply filter_ext_in. intros [f u] H.
    apply In_slots in H. cbn [fst snd] in *. unfold edge_no. cbn [fst snd]. now rewrite edge_var by tauto.
  Qed.
  Lemma slot_states f u : f < length fs -> u < arity fs f -> nth (sf_first_edge fs f + u) (map snd (sf_edges fs)) 0 = snd (var_at fs f u).
  Proof.
    intros Hf Hu. rewrite nth_states; [now rewrite edge_var|]. change (edge_no (f, u) < length (sf_edges fs)).
    apply edge_no_lt, In_slots. auto.
  Qed.
  Lemma slot_index_lt f u s : f < length fs -> u < arity fs f -> s < snd (var_at fs f u) -> slot_index fs f u s < total_states fs.
  Proof.
    intros Hf Hu Hs. unfold slot_index, total_states, edge_start. apply off_block_lt.
    - rewrite map_length. change (edge_no (f, u) < length (sf_edges fs)). apply edge_no_lt, In_slots. auto.
    - now rewrite slot_states.
  Qed.

  Lemma var_to_fac_read starts0 n (msgs ev : list R) : disjoint_layout starts0 (sf_edges fs) n ->
    length msgs = total_states fs -> n <= length ev ->
    msg_eq fs (read_msgs fs (pass_var_to_fac_messages msgs ev (edge_var_states starts0 (sf_edges fs))))
              (var_to_fac fs (read_ev starts0 ev) (read_msgs fs msgs)).
  Proof.
    intros Hlay Hm Hev f u s Hf Hu Hs. unfold read_msgs at 1, slot_index.
    rewrite (var_to_fac_edges starts0 (sf_edges fs) n Hlay); [|exact Hm|exact Hev| |now rewrite slot_states].
    2:{ change (edge_no (f, u) < length (sf_edges fs)). apply edge_no_lt, In_slots. auto. }
    rewrite edge_var by assumption. unfold var_to_fac, read_ev. f_equal.
    rewrite slots_of_edges, filter_map, map_map. f_equal.
    rewrite (filter_ext_in (fun x => negb (edge_no x =? sf_first_edge fs f + u)) (fun fu => negb (slot_eqb fu (f, u)))); [reflexivity|].
    intros [f' u'] H. unfold slots_of in H. apply filter_In in H. destruct H as [H _]. f_equal. unfold slot_eqb. cbn [fst snd].
    destruct (Nat.eqb_spec (edge_no (f', u')) (sf_first_edge fs f + u)) as [E|E].
    - apply (edge_no_inj (f', u') (f, u)) in E; [|exact H|apply In_slots; auto]. injection E as -> ->. now rewrite !Nat.eqb_refl.
    - destruct (Nat.eqb_spec f' f); [|reflexivity]. destruct (Nat.eqb_spec u' u); [|reflexivity]. subst. contradiction.
  Qed.
End Slots.
