(** * Lemmas about dictionaries that pass through jax.jit. *)
From Verif Require Import NumPy Lists VGroup FGraph BPState BP Jit SpecVGroup SpecFGraph SpecFactor SpecWiring SpecState SpecBeliefs SpecJit.
From Verif Require Import LemFGraph LemEvidence LemState LemDup.
From Coq Require Import Permutation Sorting.Sorted Lia Bool.
From Coq Require String.
Local Open Scope nat_scope.

(** ** Sorting *)
Lemma orders_perm {X} (lt : X -> X -> bool) l l' : orders lt l -> Permutation l l' -> orders lt l'.
Proof.
  intros [H1 [H2 H3]] HP. assert (Hin : forall x, In x l' -> In x l) by (intros x; apply Permutation_in; now symmetry).
  split; [intros x Hx; apply H1; auto|]. split; [intros x y z Hx Hy Hz; apply H2; auto|].
  apply (ForallOrdPairs_perm _ l l'); [|exact HP|exact H3]. intros x y. tauto.
Qed.
Lemma sorted_unique {X} (lt : X -> X -> bool) (l l' : list X) :
  (forall x y, In x l -> In y l -> lt x y = true -> lt y x = true -> False) ->
  StronglySorted (fun x y => lt x y = true) l -> StronglySorted (fun x y => lt x y = true) l' -> Permutation l l' -> l = l'.
Proof.
  intros Hasym H. revert l'. induction H as [|x l Hs IH Hf]; intros l' H' HP.
  - apply Permutation_nil in HP. now subst.
  - destruct l' as [|y l']; [symmetry in HP; now apply Permutation_nil in HP|].
    inversion H' as [|? ? Hs' Hf']; subst. rewrite Forall_forall in Hf, Hf'.
    assert (x = y).
    { assert (Hx : In x (y :: l')) by (eapply Permutation_in; [exact HP|now left]).
      assert (Hy : In y (x :: l)) by (eapply Permutation_in; [symmetry; exact HP|now left]).
      destruct Hx as [Hx|Hx]; [now symmetry|]. destruct Hy as [Hy|Hy]; [assumption|]. exfalso.
      apply (Hasym x y); [now left|now right|now apply Hf|now apply Hf']. }
    subst y. f_equal. apply IH; [|exact Hs'|now apply Permutation_cons_inv in HP].
    intros a b Ha Hb. apply Hasym; now right.
Qed.
Lemma orders_asym {X} (lt : X -> X -> bool) l x y : orders lt l -> In x l -> In y l -> lt x y = true -> lt y x = true -> False.
Proof. intros [H1 [H2 _]] Hx Hy A B. specialize (H2 x y x Hx Hy Hx A B). rewrite H1 in H2 by exact Hx. discriminate. Qed.

Lemma insert_perm {X} (lt : X -> X -> bool) x l : Permutation (insert_by lt x l) (x :: l).
Proof.
  induction l as [|y l IH]; cbn [insert_by]; [reflexivity|]. destruct (lt y x); [|reflexivity].
  rewrite IH. apply perm_swap.
Qed.
Lemma py_sort_perm X lt (l : list X) : Permutation (py_sort X lt l) l.
Proof. induction l as [|x l IH]; cbn; [constructor|]. rewrite insert_perm. now constructor. Qed.
Lemma insert_sorted {X} (lt : X -> X -> bool) x l :
  (forall y z, In y l -> In z l -> lt x y = true -> lt y z = true -> lt x z = true) ->
  (forall y, In y l -> lt x y = true \/ lt y x = true) ->
  StronglySorted (fun x y => lt x y = true) l -> StronglySorted (fun x y => lt x y = true) (insert_by lt x l).
Proof.
  intros Ht Hc Hs. induction Hs as [|y l Hs IH Hf]; cbn [insert_by]; [repeat constructor|]. destruct (lt y x) eqn:E.
  - constructor.
    + apply IH; [intros a b Ha Hb; apply Ht; now right|intros a Ha; apply Hc; now right].
    + rewrite Forall_forall in *. intros a Ha. apply (Permutation_in _ (insert_perm lt x l)) in Ha. destruct Ha as [<-|Ha]; [exact E|now apply Hf].
  - destruct (Hc y) as [A|A]; [now left| |congruence]. constructor; [now constructor|]. constructor; [exact A|].
    rewrite Forall_forall in *. intros a Ha. apply (Ht y a); [now left|now right|exact A|now apply Hf].
Qed.
Lemma py_sort_sorts : sorts py_sort.
Proof.
  split; [apply py_sort_perm|]. intros X lt l. induction l as [|x l IH]; intros [H1 [H2 H3]]; [constructor|].
  cbn [py_sort fold_right]. change (fold_right (insert_by lt) [] l) with (py_sort X lt l). inversion H3 as [|? ? Hx Hl]; subst.
  assert (Hin : forall y, In y (py_sort X lt l) -> In y l) by (intros y; apply Permutation_in, py_sort_perm). apply insert_sorted.
  - intros y z Hy Hz. apply H2; [now left|right; auto|right; auto].
  - intros y Hy. rewrite Forall_forall in Hx. apply Hx. auto.
  - apply IH. split; [intros y Hy; apply H1; now right|]. split; [|exact Hl]. intros a b c Ha Hb Hc. apply H2; now right.
Qed.

Section Srt.
  Variable srt : forall X : Type, (X -> X -> bool) -> list X -> list X.
  Hypothesis Hsrt : sorts srt.
  Lemma srt_unique X lt (l l' : list X) : orders lt l -> Permutation l l' -> srt X lt l = srt X lt l'.
  Proof.
    intros Ho HP. apply (sorted_unique lt).
    - intros x y Hx Hy. apply (orders_asym lt l x y Ho); eapply Permutation_in; try eassumption; apply (proj1 Hsrt).
    - now apply (proj2 Hsrt).
    - apply (proj2 Hsrt). now apply (orders_perm lt l).
    - rewrite (proj1 Hsrt X lt l), HP. symmetry. apply (proj1 Hsrt).
  Qed.
  Lemma srt_py X lt (l : list X) : orders lt l -> srt X lt l = py_sort X lt l.
  Proof.
    intros Ho. apply (sorted_unique lt).
    - intros x y Hx Hy. apply (orders_asym lt l x y Ho); eapply Permutation_in; try eassumption; apply (proj1 Hsrt).
    - now apply (proj2 Hsrt).
    - now apply (proj2 py_sort_sorts).
    - rewrite (proj1 Hsrt X lt l). symmetry. apply py_sort_perm.
  Qed.
  Lemma jit_dict_perm {K V} (lt : K -> K -> bool) (d : list (K * V)) : Permutation (jit_dict srt lt d) d.
  Proof. apply (proj1 Hsrt). Qed.
End Srt.

(** ** Dictionaries with distinct keys *)
Section DictPerm.
  Context {K V : Type} (eqb : K -> K -> bool).
  Hypothesis eqb_sym : forall k k', eqb k k' = eqb k' k.
  Hypothesis eqb_trans : forall a b c, eqb a b = true -> eqb b c = true -> eqb a c = true.
  Definition distinct (d : list (K * V)) : Prop := ForallOrdPairs (fun p q => eqb (fst p) (fst q) = false) d.
  Lemma distinct_perm d d' : distinct d -> Permutation d d' -> distinct d'.
  Proof. intros H HP. apply (ForallOrdPairs_perm _ d d'); [|exact HP|exact H]. intros x y E. now rewrite eqb_sym. Qed.
  Lemma dget_perm d d' k : distinct d -> Permutation d d' -> dget eqb k d = dget eqb k d'.
  Proof.
    intros Hd HP. revert Hd. induction HP as [|[a v] d d' HP IH|[a v] [b w] d|d1 d2 d3 HP1 IH1 HP2 IH2]; intros Hd.
    - reflexivity.
    - inversion Hd; subst. cbn [dget]. now rewrite IH.
    - inversion Hd as [|? ? Hx Hl]; subst. inversion Hx as [|? ? Hxy _]; subst. cbn [fst] in Hxy. cbn [dget].
      destruct (eqb k a) eqn:E; [|reflexivity]. destruct (eqb k b) eqn:F; [|reflexivity].
      rewrite eqb_sym in F. rewrite (eqb_trans b k a F E) in Hxy. discriminate.
    - rewrite IH1 by exact Hd. apply IH2. now apply (distinct_perm d1).
  Qed.
  Lemma dset_distinct k (v : V) d : distinct d -> distinct (dset eqb k v d).
  Proof.
    assert (Hk : forall d p, In p (dset eqb k v d) -> fst p = k \/ exists w, In (fst p, w) d).
    { clear - d. induction d0 as [|[a w] d0 IH]; cbn [dset]; intros p Hp.
      - destruct Hp as [<-|[]]. now left.
      - destruct (eqb k a).
        + destruct Hp as [<-|Hp]; [right; exists w; now left|]. right. exists (snd p). right. now destruct p.
        + destruct Hp as [<-|Hp]; [right; exists w; now left|]. destruct (IH p Hp) as [E|[w' E]]; [now left|right; exists w'; now right]. }
    intros H. induction H as [|[a w] d Hx Hl IH]; cbn [dset]; [repeat constructor|].
    destruct (eqb k a) eqn:E; constructor; try assumption.
    rewrite Forall_forall in *. intros p Hp. cbn [fst]. destruct (Hk d p Hp) as [->|[w' Hw]]; [now rewrite eqb_sym|]. now apply (Hx (fst p, w')).
  Qed.
End DictPerm.
Lemma zeqb_distinct {V} (m : list (Z * V)) : NoDup (map fst m) <-> distinct Z.eqb m.
Proof.
  unfold distinct. induction m as [|[a v] m IH]; cbn [map fst]; [split; constructor|]. split.
  - intros H. inversion H as [|? ? Hn Hd]; subst. constructor; [|now apply IH]. rewrite Forall_forall. intros p Hp. cbn [fst]. apply Z.eqb_neq. intros ->. apply Hn. now apply in_map.
  - intros H. inversion H as [|? ? Hn Hd]; subst. constructor; [|now apply IH]. rewrite in_map_iff. intros [p [E Hp]]. rewrite Forall_forall in Hn. specialize (Hn p Hp). cbn [fst] in Hn. subst a. now rewrite Z.eqb_refl in Hn.
Qed.
Lemma zeqb_trans a b c : (a =? b)%Z = true -> (b =? c)%Z = true -> (a =? c)%Z = true.
Proof. lia. Qed.
Lemma dget_names {V} (m m' : list (Z * V)) k : NoDup (map fst m) -> Permutation m m' -> dget Z.eqb k m = dget Z.eqb k m'.
Proof. intros H HP. apply (dget_perm Z.eqb Z.eqb_sym zeqb_trans); [now apply zeqb_distinct|exact HP]. Qed.

(** ** Names in the data of a VarDict *)
Lemma mapM_check {X} (f : X -> res unit) e l : (forall x, f x = Ok tt \/ f x = Raise e) ->
  mapM f l = if forallb (fun x => match f x with Ok _ => true | Raise _ => false end) l then Ok (map (fun _ => tt) l) else Raise e.
Proof.
  intros H. induction l as [|x l IH]; [reflexivity|]. cbn [mapM forallb map]. destruct (H x) as [E|E]; rewrite E; cbn [bind andb]; [|reflexivity].
  rewrite IH. now destruct (forallb _ l).
Qed.
Lemma forallb_perm {X} (f : X -> bool) l l' : Permutation l l' -> forallb f l = forallb f l'.
Proof.
  intros HP. apply eq_true_iff_eq. rewrite !forallb_forall. split; intros H x Hx; apply H; eapply Permutation_in; try eassumption. now symmetry.
Qed.
Lemma vd_flatten_perm {A} v (m m' : list (name * ndarray A)) : NoDup (map fst m) -> Permutation m m' -> vd_flatten v m = vd_flatten v m'.
Proof.
  intros Hn HP. unfold vd_flatten.
  assert (Hc : forall x : name * ndarray A, vd_check v x = Ok tt \/ vd_check v x = Raise ValueError).
  { intros x. unfold vd_check. destruct (index_of _ _); [|now right]. destruct (_ || _); auto. }
  rewrite (mapM_check (vd_check v) ValueError m Hc), (mapM_check (vd_check v) ValueError m' Hc).
  rewrite (forallb_perm _ m m' HP). destruct (forallb _ m'); [|reflexivity]. cbn [bind].
  rewrite (mapM_ext _ (fun x => match dget Z.eqb x m' with Some a => Ok (data a) | None => Raise KeyError end) (vd_names v)); [reflexivity|].
  intros x _. now rewrite (dget_names m m' x Hn HP).
Qed.
Lemma step_jit_data srt {A} (st : fg_state A) ev k d : sorts srt -> names_once d ->
  update_evidence_step st ev (k, jit_data srt d) = update_evidence_step st ev (k, d).
Proof.
  intros Hs Hn. destruct d as [a|m]; [reflexivity|]. cbn [jit_data]. destruct k as [g|v|]; cbn [update_evidence_step]; try reflexivity.
  destruct (existsb _ _); [|reflexivity]. destruct (vg_variables g); [reflexivity|]. destruct (dget _ _ _); [|reflexivity].
  destruct g as [va|vd]; [reflexivity|]. cbn [vg_flatten]. now rewrite (vd_flatten_perm vd m (jit_dict srt Z.ltb m) Hn ltac:(symmetry; now apply jit_dict_perm)).
Qed.
Lemma update_jit_items srt {A} (st : fg_state A) us : sorts srt -> Forall (fun u => names_once (snd u)) us -> forall ev,
  update_evidence st ev (jit_items srt us) = update_evidence st ev us.
Proof.
  intros Hs Hn. unfold update_evidence. induction Hn as [|[k d] us Hd Hn IH]; intros ev; [reflexivity|].
  cbn [jit_items map foldM fst snd] in *. rewrite step_jit_data by assumption. destruct (update_evidence_step st ev (k, d)); [|reflexivity]. cbn [bind]. apply IH.
Qed.

(** ** Updates of disjoint entries *)
Lemma C52_evidence_lemma srt hash_var {A} gs (g : fgraph A) junk st (ev : list A) us :
  sorts srt -> groups_ok gs -> (forall x, In x (all_vars gs) -> 0 < snd x) ->
  reachable gs g -> compile_fg_state junk g = Ok st -> length ev = st_num_var_states st ->
  Forall (update_ok gs) us -> ForallOrdPairs disjoint_updates us -> Forall (fun u => names_once (snd u)) us ->
  forall ev', jit_update_evidence srt hash_var st ev us = Ok ev' <-> update_evidence st ev us = Ok ev'.
Proof.
  intros Hs Hok Hpos Hr Hc Hl HF Hd Hn ev'. unfold jit_update_evidence.
  pose proof (jit_dict_perm srt Hs (ev_lt hash_var) (jit_items srt us)) as HP. unfold jit_items in HP at 2.
  apply Permutation_map_inv in HP. destruct HP as [us' [E HP]].
  change (map (fun p : ev_key * gdata A => (fst p, jit_data srt (snd p))) us') with (jit_items srt us') in E. rewrite E.
  rewrite update_jit_items; [|exact Hs|]; [|rewrite Forall_forall in *; intros u Hu; apply Hn; eapply Permutation_in; [symmetry; exact HP|exact Hu]].
  symmetry. now apply (C09_lemma gs g junk st ev us us').
Qed.
Lemma C52_log_potentials_lemma srt {A} (g : fgraph A) junk st (lp : list A) us :
  sorts srt -> compile_fg_state junk g = Ok st -> NoDup (map fg_id (all_groups (gr_groups g))) ->
  length lp = length (st_log_potentials st) ->
  Forall (fun u => lp_key_ok (all_groups (gr_groups g)) (fst u)) us ->
  ForallOrdPairs (fun u v => fg_id (fst u) <> fg_id (fst v)) us ->
  forall lp', jit_update_log_potentials srt st lp us = Ok lp' <-> update_log_potentials st lp us = Ok lp'.
Proof.
  intros Hs Hc Hn Hl HF Hd lp'. unfold jit_update_log_potentials. symmetry.
  apply (C09_lp_lemma g junk st lp us (jit_dict srt fg_lt us)); try assumption. symmetry. now apply jit_dict_perm.
Qed.

Lemma messages_determine {A} (es : list variable) : forall m m' : list A,
  length m = list_sum (map snd es) -> length m' = list_sum (map snd es) ->
  (forall e x, nth_error es e = Some x -> message es m e = message es m' e) -> m = m'.
Proof.
  induction es as [|x es IH]; intros m m' Hl Hl' H.
  - cbn in Hl, Hl'. destruct m; [|discriminate]. destruct m'; [reflexivity|discriminate].
  - cbn [map list_sum fold_right] in Hl, Hl'. rewrite <- (firstn_skipn (snd x) m), <- (firstn_skipn (snd x) m'). f_equal.
    + specialize (H 0 x eq_refl). unfold message, edge_start, off, slice in H. cbn [firstn map list_sum fold_right nth skipn] in H. rewrite !Nat.sub_0_r in H. exact H.
    + apply IH.
      * rewrite skipn_length. unfold list_sum. lia.
      * rewrite skipn_length. unfold list_sum. lia.
      * intros e y He. specialize (H (S e) y He). unfold message, edge_start, off, slice in *. cbn [firstn map list_sum fold_right nth] in H.
        rewrite !skipn_skipn'.
        match type of H with firstn ?a (skipn ?b m) = _ => match goal with |- firstn ?a' (skipn ?b' m) = _ => replace a' with a by (unfold list_sum; lia); replace b' with b by (unfold list_sum; lia) end end.
        exact H.
Qed.
Lemma last_msg_write_perm {A} `{Num A} es (us us' : list (variable * ndarray A)) x init :
  NoDup (map fst us) -> Permutation us us' -> last_msg_write es us x init = last_msg_write es us' x init.
Proof.
  intros Hn HP. revert init. induction HP as [|u l l' HP IH|u v l|l1 l2 l3 HP1 IH1 HP2 IH2]; intros init.
  - reflexivity.
  - cbn in Hn. inversion Hn; subst. unfold last_msg_write in *. cbn [fold_left]. now apply IH.
  - cbn in Hn. inversion Hn as [|? ? H1 H2]; subst. unfold last_msg_write. cbn [fold_left].
    destruct (var_eqb (fst u) x) eqn:E; [|reflexivity]. destruct (var_eqb (fst v) x) eqn:F; [|reflexivity].
    apply var_eqb_eq in E, F. exfalso. apply H1. left. congruence.
  - rewrite IH1 by exact Hn. apply IH2. eapply Permutation_NoDup; [|exact Hn]. now apply Permutation_map.
Qed.
Lemma update_msgs_good {A} `{Num A} gs (g : fgraph A) junk st us : forall ms ms' : list A,
  groups_ok gs -> reachable gs g -> compile_fg_state junk g = Ok st -> Forall (fun u => wf_arr (snd u)) us ->
  update_ftov_msgs st ms us = Ok ms' -> Forall (good_msg_write (all_vars gs)) us.
Proof.
  induction us as [|[v d] us IH]; intros ms ms' Hok Hr Hc Hw E; [constructor|]. inversion Hw as [|? ? Hw1 Hw2]; subst.
  unfold update_ftov_msgs in *. cbn [foldM] in E.
  destruct (update_ftov_msgs_step st ms (v, d)) as [m1|] eqn:E1; [|discriminate]. cbn [bind] in E.
  constructor; [|now apply (IH m1 ms')].
  assert (Hb := C37_errors_lemma gs g junk st ms v d Hok Hr Hc). unfold update_ftov_msgs in Hb. cbn [foldM] in Hb. rewrite E1 in Hb. cbn [bind] in Hb.
  split; [|split; [exact Hw1|]]; cbn [fst snd].
  - destruct (in_dec (fun a b => match bool_dec (var_eqb a b) true with left e => left (proj1 (var_eqb_eq a b) e) | right n => right (fun e => n (proj2 (var_eqb_eq a b) e)) end) v (all_vars gs)) as [Hi|Hi]; [exact Hi|].
    specialize (Hb (or_introl Hi)). discriminate.
  - destruct (list_eq_dec Nat.eq_dec (shape d) [snd v]) as [Hi|Hi]; [exact Hi|]. specialize (Hb (or_intror Hi)). discriminate.
Qed.
Lemma C52_messages_lemma srt {A} `{Num A} gs (g : fgraph A) junk st (ms : list A) us :
  sorts srt -> groups_ok gs -> reachable gs g -> compile_fg_state junk g = Ok st -> wf_groups (gr_groups g) ->
  length ms = st_total_factor_num_states st ->
  Forall (fun u => wf_arr (snd u)) us -> NoDup (map fst us) ->
  forall ms', jit_update_ftov_msgs srt st ms us = Ok ms' <-> update_ftov_msgs st ms us = Ok ms'.
Proof.
  intros Hs Hok Hr Hc Hwf Hl Hw Hn.
  assert (Half : forall us us' : list (variable * ndarray A), Forall (fun u => wf_arr (snd u)) us -> NoDup (map fst us) -> Permutation us us' ->
    forall ms', update_ftov_msgs st ms us = Ok ms' -> update_ftov_msgs st ms us' = Ok ms').
  { clear us Hw Hn. intros us us' Hw Hn HP ms' E. pose proof (update_msgs_good gs g junk st us ms ms' Hok Hr Hc Hw E) as Hg.
    assert (Hg' : Forall (good_msg_write (all_vars gs)) us') by (rewrite Forall_forall in *; intros u Hu; apply Hg; eapply Permutation_in; [symmetry; exact HP|exact Hu]).
    destruct (C37_lemma gs g junk st 0 ms us Hok Hr Hc Hwf Hl Hg) as [m1 [E1 [_ [L1 [S1 M1]]]]].
    destruct (C37_lemma gs g junk st 0 ms us' Hok Hr Hc Hwf Hl Hg') as [m2 [E2 [_ [L2 [_ M2]]]]].
    rewrite E in E1. injection E1 as <-. rewrite E2. f_equal. apply (messages_determine (all_edges (gr_groups g))); [congruence|congruence|].
    intros e x He. rewrite (M2 e x He), (M1 e x He). symmetry. now apply last_msg_write_perm. }
  intros ms'. unfold jit_update_ftov_msgs. pose proof (jit_dict_perm srt Hs var_lt us) as HP. split.
  - apply Half; [|eapply Permutation_NoDup; [|exact Hn]; apply Permutation_map; now symmetry|exact HP].
    rewrite Forall_forall in *. intros u Hu. apply Hw. eapply Permutation_in; [exact HP|exact Hu].
  - apply Half; [exact Hw|exact Hn|now symmetry].
Qed.

(** ** Dictionaries with one kind of key *)
Lemma orders_fst {K V} (lt : K -> K -> bool) (d : list (K * V)) :
  (forall k, lt k k = false) -> (forall a b c, lt a b = true -> lt b c = true -> lt a c = true) ->
  ForallOrdPairs (fun p q => lt (fst p) (fst q) = true \/ lt (fst q) (fst p) = true) d ->
  orders (fun p q => lt (fst p) (fst q)) d.
Proof. intros H1 H2 H3. split; [intros; apply H1|]. split; [|exact H3]. intros x y z _ _ _. apply H2. Qed.
Lemma var_lt_irrefl v : var_lt v v = false.
Proof. unfold var_lt. lia. Qed.
Lemma var_lt_trans a b c : var_lt a b = true -> var_lt b c = true -> var_lt a c = true.
Proof. unfold var_lt. lia. Qed.
Lemma var_lt_total a b : a <> b -> var_lt a b = true \/ var_lt b a = true.
Proof. destruct a as [a1 a2], b as [b1 b2]. unfold var_lt. cbn [fst snd]. intros H. assert (a1 <> b1 \/ a2 <> b2) by (destruct (Z.eq_dec a1 b1), (Nat.eq_dec a2 b2); [subst; congruence| | |]; auto). lia. Qed.
Lemma vg_lt_total g h : (vg_id g mod 2 ^ 32 <> vg_id h mod 2 ^ 32)%Z -> vg_lt g h = true \/ vg_lt h g = true.
Proof. unfold vg_lt, vg_hash, MAX_SIZE. generalize (vg_id g mod 2 ^ 32)%Z (vg_id h mod 2 ^ 32)%Z. intros a b. lia. Qed.
Lemma NoDup_pairs {K V} (d : list (K * V)) : NoDup (map fst d) -> ForallOrdPairs (fun p q => fst p <> fst q) d.
Proof.
  induction d as [|p d IH]; intros H; [constructor|]. cbn in H. inversion H as [|? ? H1 H2]; subst. constructor; [|now apply IH].
  rewrite Forall_forall. intros q Hq E. apply H1. rewrite E. now apply in_map.
Qed.
Lemma ForallOrdPairs_impl_in {X} (R S : X -> X -> Prop) l : (forall x y, In x l -> In y l -> R x y -> S x y) -> ForallOrdPairs R l -> ForallOrdPairs S l.
Proof.
  intros H HR. induction HR as [|x l Hx Hl IH]; constructor.
  - rewrite Forall_forall in *. intros y Hy. apply H; [now left|now right|now apply Hx].
  - apply IH. intros a b Ha Hb. apply H; now right.
Qed.
Lemma jit_items_perm srt {K A} (us us' : list (K * gdata A)) : Permutation us us' -> Permutation (jit_items srt us) (jit_items srt us').
Proof. apply Permutation_map. Qed.
Lemma jit_items_keys srt {K A} (us : list (K * gdata A)) : map fst (jit_items srt us) = map fst us.
Proof. unfold jit_items. rewrite map_map. now apply map_ext. Qed.

Lemma C52_order_lemma srt hash_var {A} `{Num A} (st : fg_state A) :
  sorts srt ->
  (forall ev us us', group_keys us \/ variable_keys us -> Permutation us us' ->
     jit_update_evidence srt hash_var st ev us = jit_update_evidence srt hash_var st ev us') /\
  (forall lp us us', ForallOrdPairs (fun u v => fg_id (fst u) <> fg_id (fst v)) us -> Permutation us us' ->
     jit_update_log_potentials srt st lp us = jit_update_log_potentials srt st lp us') /\
  (forall ms us us', NoDup (map fst us) -> Permutation us us' ->
     jit_update_ftov_msgs srt st ms us = jit_update_ftov_msgs srt st ms us').
Proof.
  intros Hs. split; [|split].
  - intros ev us us' Hk HP. unfold jit_update_evidence, jit_dict. f_equal. apply srt_unique; [exact Hs| |now apply jit_items_perm].
    assert (HF : forall R : ev_key -> ev_key -> Prop, ForallOrdPairs (fun p q => R (fst p) (fst q)) us -> ForallOrdPairs (fun p q => R (fst p) (fst q)) (jit_items srt us)).
    { intros R HR. unfold jit_items. clear -HR. induction HR as [|p us Hp Hl IH]; cbn [map]; constructor; [|exact IH].
      rewrite Forall_forall in *. intros q Hq. apply in_map_iff in Hq. destruct Hq as [q' [<- Hq']]. cbn [fst]. now apply Hp. }
    assert (HI : forall p, In p (jit_items srt us) -> exists u, In u us /\ fst u = fst p).
    { intros p Hp. unfold jit_items in Hp. apply in_map_iff in Hp. destruct Hp as [u [<- Hu]]. exists u. auto. }
    destruct Hk as [[Hk Hd]|[Hk Hd]].
    + assert (HG : forall p, In p (jit_items srt us) -> exists g, fst p = EGroup g) by (intros p Hp; destruct (HI p Hp) as [u [Hu <-]]; now apply Hk).
      split; [|split].
      * intros p Hp. destruct (HG p Hp) as [g ->]. cbn. unfold vg_lt. lia.
      * intros x y z Hx Hy Hz. destruct (HG x Hx) as [a ->], (HG y Hy) as [b ->], (HG z Hz) as [c ->]. cbn. unfold vg_lt. lia.
      * apply (HF (fun k l => ev_lt hash_var k l = true \/ ev_lt hash_var l k = true)).
        revert Hd. apply ForallOrdPairs_impl_in. intros x y Hx Hy Hxy. destruct (Hk x Hx) as [a Ea], (Hk y Hy) as [b Eb].
        specialize (Hxy a b Ea Eb). rewrite Ea, Eb. cbn. now apply vg_lt_total.
    + assert (HG : forall p, In p (jit_items srt us) -> exists v, fst p = EVar v) by (intros p Hp; destruct (HI p Hp) as [u [Hu <-]]; now apply Hk).
      split; [|split].
      * intros p Hp. destruct (HG p Hp) as [g ->]. apply var_lt_irrefl.
      * intros x y z Hx Hy Hz. destruct (HG x Hx) as [a ->], (HG y Hy) as [b ->], (HG z Hz) as [c ->]. apply var_lt_trans.
      * apply (HF (fun k l => ev_lt hash_var k l = true \/ ev_lt hash_var l k = true)).
        apply NoDup_pairs in Hd. revert Hd. apply ForallOrdPairs_impl_in. intros x y Hx Hy Hxy. destruct (Hk x Hx) as [a Ea], (Hk y Hy) as [b Eb].
        rewrite Ea, Eb in *. cbn. apply var_lt_total. congruence.
  - intros lp us us' Hd HP. unfold jit_update_log_potentials, jit_dict. f_equal. apply srt_unique; [exact Hs| |exact HP].
    apply orders_fst; [intros k; unfold fg_lt; lia|intros a b c; unfold fg_lt; lia|].
    revert Hd. apply ForallOrdPairs_impl_in. intros x y _ _ Hxy. unfold fg_lt. lia.
  - intros ms us us' Hd HP. unfold jit_update_ftov_msgs, jit_dict. f_equal. apply srt_unique; [exact Hs| |exact HP].
    apply orders_fst; [exact var_lt_irrefl|exact var_lt_trans|]. apply NoDup_pairs in Hd. revert Hd. apply ForallOrdPairs_impl_in.
    intros x y _ _ Hxy. now apply var_lt_total.
Qed.

(** ** A group and one of its variables in the same dictionary *)
Lemma srt_two srt X lt (u v : X) : sorts srt -> lt u v = true -> lt v u = false -> lt u u = false -> lt v v = false ->
  srt X lt [u; v] = [u; v] /\ srt X lt [v; u] = [u; v].
Proof.
  intros Hs H1 H2 H3 H4.
  assert (Ho : orders lt [u; v]).
  { split; [intros x [<-|[<-|[]]]; assumption|]. split; [|constructor; [constructor; [now left|constructor]|constructor; constructor]].
    intros x y z [<-|[<-|[]]] [<-|[<-|[]]] [<-|[<-|[]]]; congruence. }
  assert (E : srt X lt [u; v] = [u; v]).
  { rewrite (srt_py srt Hs) by exact Ho. cbn. now rewrite H2. }
  split; [exact E|]. rewrite <- E. symmetry. apply srt_unique; [exact Hs|exact Ho|apply perm_swap].
Qed.
Lemma C52_overlap_lemma srt hash_var {A} gs (g : fgraph A) junk st n (ev : list A) gr d v i a us :
  sorts srt -> groups_ok gs -> reachable gs g -> compile_fg_state junk g = Ok st ->
  length ev = st_num_var_states st ->
  good_write gs (EGroup gr, d) -> good_write gs (EVar v, DArr a) -> names_once d ->
  position v (vg_variables gr) = Some i ->
  us = [(EGroup gr, d); (EVar v, DArr a)] \/ us = [(EVar v, DArr a); (EGroup gr, d)] ->
  hash_var v <> vg_hash (vg_id gr) ->
  exists ev', jit_update_evidence srt hash_var st ev us = Ok ev' /\
    Evidence_getitem {| c_state := (n, st); c_value := ev' |} v
    = Ok (if (vg_hash (vg_id gr) <? hash_var v)%Z then data a else entry gr d i).
Proof.
  intros Hs Hok Hr Hc Hl Hg Hv Hn Hpos Hus Hne.
  set (ug := (EGroup gr, jit_data srt d) : ev_key * gdata A). set (uv := (EVar v, DArr a) : ev_key * gdata A).
  set (lt := fun p q : ev_key * gdata A => ev_lt hash_var (fst p) (fst q)).
  assert (Hgg : lt ug ug = false) by (cbn; unfold vg_lt; lia). assert (Hvv : lt uv uv = false) by (apply var_lt_irrefl).
  assert (Hgv : lt ug uv = (vg_hash (vg_id gr) <? hash_var v)%Z) by reflexivity.
  assert (Hvg : lt uv ug = (hash_var v <? vg_hash (vg_id gr))%Z) by reflexivity.
  assert (Hdict : jit_dict srt (ev_lt hash_var) (jit_items srt us) = if (vg_hash (vg_id gr) <? hash_var v)%Z then [ug; uv] else [uv; ug]).
  { unfold jit_dict. fold lt. destruct (vg_hash (vg_id gr) <? hash_var v)%Z eqn:E.
    - destruct (srt_two srt _ lt ug uv Hs) as [S1 S2]; [exact Hgv|rewrite Hvg; lia|exact Hgg|exact Hvv|]. destruct Hus as [-> | ->]; assumption.
    - destruct (srt_two srt _ lt uv ug Hs) as [S1 S2]; [rewrite Hvg; lia|exact Hgv|exact Hvv|exact Hgg|]. destruct Hus as [-> | ->]; assumption. }
  set (b := (vg_hash (vg_id gr) <? hash_var v)%Z) in *.
  set (us' := if b then [(EGroup gr, d); (EVar v, DArr a)] else [(EVar v, DArr a); (EGroup gr, d)]).
  assert (Hit : jit_dict srt (ev_lt hash_var) (jit_items srt us) = jit_items srt us') by (rewrite Hdict; unfold us'; now destruct b).
  assert (HF : Forall (good_write gs) us') by (unfold us'; destruct b; repeat (constructor; try assumption)).
  destruct (C07_lemma gs g junk st n ev us' Hok Hr Hc Hl HF) as [ev' [E1 [_ [_ E3]]]].
  exists ev'. split.
  - unfold jit_update_evidence. rewrite Hit, update_jit_items; [exact E1|exact Hs|]. unfold us'. destruct b; (constructor; [|constructor; [|constructor]]); first [exact Hn|exact I].
  - destruct (E3 v) as [old [_ [_ E4]]]; [exact (proj1 Hv)|]. rewrite E4. f_equal. unfold last_write, us'. destruct b; cbn [fold_left covers fst snd].
    + now rewrite var_eqb_refl.
    + rewrite Hpos. reflexivity.
Qed.

(** ** Results *)
Definition data_perm {B} (d d' : gdata B) : Prop :=
  match d, d' with DArr a, DArr a' => a = a' | DMap m, DMap m' => Permutation m m' | _, _ => False end.
Definition item_perm {B} (p q : vgroup * gdata B) : Prop := fst p = fst q /\ data_perm (snd p) (snd q).
Definition dict_perm {B} (b b' : list (vgroup * gdata B)) : Prop :=
  exists b1, Permutation b b1 /\ Forall2 item_perm b1 b'.
Definition good_dict {B} (b : list (vgroup * gdata B)) : Prop :=
  distinct vg_eqb b /\ Forall (fun p => names_once (snd p)) b.

Lemma vg_eqb_symm g h : vg_eqb g h = vg_eqb h g.
Proof. unfold vg_eqb. apply Z.eqb_sym. Qed.
Lemma vg_eqb_tran a b c : vg_eqb a b = true -> vg_eqb b c = true -> vg_eqb a c = true.
Proof. unfold vg_eqb. lia. Qed.

Lemma data_perm_trans {B} (a b c : gdata B) : data_perm a b -> data_perm b c -> data_perm a c.
Proof. destruct a, b, c; cbn; try contradiction; [congruence|]. apply Permutation_trans. Qed.
Lemma item_perm_trans {B} (a b c : vgroup * gdata B) : item_perm a b -> item_perm b c -> item_perm a c.
Proof. intros [H1 H2] [H3 H4]. split; [congruence|]. now apply (data_perm_trans _ (snd b)). Qed.
Lemma Forall2_trans_in {X} (R : X -> X -> Prop) : (forall a b c, R a b -> R b c -> R a c) -> forall l1 l2 l3, Forall2 R l1 l2 -> Forall2 R l2 l3 -> Forall2 R l1 l3.
Proof.
  intros Ht l1 l2 l3 H. revert l3. induction H as [|a b l1 l2 Hab H IH]; intros l3 H'; inversion H'; subst; constructor; [now apply (Ht a b)|now apply IH].
Qed.
Lemma Forall2_swap {X Y} (R : X -> Y -> Prop) l1 l2 : Forall2 R l1 l2 -> Forall2 (fun y x => R x y) l2 l1.
Proof. intros H. induction H; constructor; auto. Qed.
Lemma dict_perm_trans {B} (a b c : list (vgroup * gdata B)) : dict_perm a b -> dict_perm b c -> dict_perm a c.
Proof.
  intros [a1 [P1 F1]] [b1 [P2 F2]]. apply Forall2_swap in F1. destruct (Permutation_Forall2 P2 F1) as [a2 [P3 F3]].
  apply Forall2_swap in F3. exists a2. split; [now rewrite P1|]. now apply (Forall2_trans_in item_perm item_perm_trans _ b1).
Qed.
Lemma jit_result_perm srt {B} (b : list (vgroup * gdata B)) : sorts srt -> dict_perm b (jit_result srt b).
Proof.
  intros Hs. pose proof (jit_dict_perm srt Hs vg_lt (jit_items srt b)) as HP. unfold jit_items in HP at 2.
  apply Permutation_map_inv in HP. destruct HP as [b1 [E HP]]. exists b1. split; [exact HP|]. unfold jit_result. rewrite E.
  clear -Hs. induction b1 as [|[g d] b1 IH]; cbn [map]; constructor; [|exact IH]. split; [reflexivity|]. cbn [snd].
  destruct d as [a|m]; cbn; [reflexivity|]. symmetry. now apply jit_dict_perm.
Qed.
Lemma mapM_Forall2 {X Y X' Y'} (R : X -> X' -> Prop) (S : Y -> Y' -> Prop) f f' l l' r :
  (forall x x' y, R x x' -> f x = Ok y -> exists y', f' x' = Ok y' /\ S y y') ->
  Forall2 R l l' -> mapM f l = Ok r -> exists r', mapM f' l' = Ok r' /\ Forall2 S r r'.
Proof.
  intros H HF. revert r. induction HF as [|x x' l l' Hx HF IH]; intros r E.
  - injection E as <-. exists []. split; [reflexivity|constructor].
  - cbn [mapM] in E |- *. destruct (f x) as [y|] eqn:Ey; [|discriminate]. cbn [bind] in E. destruct (mapM f l) as [ys|]; [|discriminate]. cbn [bind] in E. injection E as <-.
    destruct (H x x' y Hx Ey) as [y' [Ey' Sy]]. destruct (IH ys eq_refl) as [r' [Er Hr]]. exists (y' :: r'). rewrite Ey'. cbn [bind]. rewrite Er. split; [reflexivity|now constructor].
Qed.
Lemma mapM_perm {X Y} (f : X -> res Y) l l' r : Permutation l l' -> mapM f l = Ok r -> exists r', mapM f l' = Ok r' /\ Permutation r r'.
Proof.
  intros HP. revert r. induction HP as [|x l l' HP IH|x y l|l1 l2 l3 HP1 IH1 HP2 IH2]; intros r E.
  - exists r. now split.
  - cbn [mapM] in *. destruct (f x) as [z|]; [|discriminate]. cbn [bind] in *. destruct (mapM f l) as [zs|]; [|discriminate]. cbn [bind] in *. injection E as <-.
    destruct (IH zs eq_refl) as [r' [-> Hr]]. exists (z :: r'). cbn [bind]. split; [reflexivity|now constructor].
  - cbn [mapM] in *. destruct (f y) as [z|]; [|discriminate]. cbn [bind] in *. destruct (f x) as [w|]; [|discriminate]. cbn [bind] in *. destruct (mapM f l) as [zs|]; [|discriminate]. cbn [bind] in *.
    injection E as <-. exists (w :: z :: zs). split; [reflexivity|apply perm_swap].
  - destruct (IH1 r E) as [r1 [E1 P1]]. destruct (IH2 r1 E1) as [r2 [E2 P2]]. exists r2. split; [exact E2|now rewrite P1].
Qed.
Lemma map_gdata_perm {A B} `{Num A} (f : ndarray (ext A) -> res (ndarray B)) d d' x : data_perm d d' -> map_gdata f d = Ok x ->
  exists x', map_gdata f d' = Ok x' /\ data_perm x x'.
Proof.
  destruct d as [a|m], d' as [a'|m']; cbn [data_perm]; try contradiction.
  - intros <-. intros E. exists x. split; [exact E|]. cbn in E. destruct (f a); [|discriminate]. injection E as <-. reflexivity.
  - intros HP E. cbn [map_gdata] in *. destruct (mapM _ m) as [r|] eqn:Em; [|discriminate]. injection E as <-.
    destruct (mapM_perm _ _ m' r HP Em) as [r' [-> Pr]]. exists (DMap r'). split; [reflexivity|exact Pr].
Qed.
Lemma map_beliefs_perm {A B} `{Num A} (f : ndarray (ext A) -> res (ndarray B)) b b' r : dict_perm b b' -> map_beliefs f b = Ok r ->
  exists r', map_beliefs f b' = Ok r' /\ dict_perm r r'.
Proof.
  intros [b1 [HP HF]] E. unfold map_beliefs in *. destruct (mapM_perm _ _ b1 r HP E) as [r1 [E1 P1]].
  assert (Hstep : forall x x' y, @item_perm (ext A) x x' -> (y <- map_gdata f (snd x) ;; Ok (fst x, y)) = Ok y ->
    exists y', (y <- map_gdata f (snd x') ;; Ok (fst x', y)) = Ok y' /\ @item_perm B y y').
  { intros [g d] [g' d'] y [Hg Hd] Ey. cbn [fst snd] in *. destruct (map_gdata f d) as [x|] eqn:Ex; [|discriminate]. cbn [bind] in Ey. injection Ey as <-.
    destruct (map_gdata_perm f d d' x Hd Ex) as [x' [-> Hx]]. cbn [bind]. eexists. split; [reflexivity|]. now split. }
  destruct (mapM_Forall2 item_perm item_perm _ _ b1 b' r1 Hstep HF E1) as [r' [E' F']].
  exists r'. split; [exact E'|]. exists r1. now split.
Qed.
Lemma map_beliefs_keys {A B} `{Num A} (f : ndarray (ext A) -> res (ndarray B)) b : forall r, map_beliefs f b = Ok r ->
  Forall2 (fun p q => fst p = fst q /\ (names_once (snd p) -> names_once (snd q))) b r.
Proof.
  unfold map_beliefs. induction b as [|[g d] b IH]; intros r E; cbn [mapM fst snd] in E; [injection E as <-; constructor|].
  destruct (map_gdata f d) as [x|] eqn:Ex; [|discriminate]. cbn [bind] in E. destruct (mapM _ b) as [xs|] eqn:Eb; [|discriminate]. cbn [bind] in E. injection E as <-.
  constructor; [|now apply IH]. cbn [fst snd]. split; [reflexivity|]. destruct d as [a|m]; cbn [map_gdata] in Ex.
  - destruct (f a); [|discriminate]. now injection Ex as <-.
  - destruct (mapM _ m) as [y|] eqn:Em; [|discriminate]. injection Ex as <-. cbn [names_once]. clear -Em.
    assert (E : map fst y = map fst m); [|now rewrite E]. revert y Em. induction m as [|[k a] m IH]; intros y Em; cbn [mapM fst snd] in Em; [now injection Em as <-|].
    destruct (f a); [|discriminate]. cbn [bind] in Em. destruct (mapM _ m); [|discriminate]. cbn [bind] in Em. injection Em as <-. cbn [map fst]. f_equal. now apply IH.
Qed.
Lemma good_Forall2 {B C} (b : list (vgroup * gdata B)) (r : list (vgroup * gdata C)) :
  Forall2 (fun p q => fst p = fst q /\ (names_once (snd p) -> names_once (snd q))) b r -> good_dict b -> good_dict r.
Proof.
  intros H. induction H as [|p q b r [H1 H2] H IH]; intros [Hd Hn]; [split; constructor|]. inversion Hd as [|? ? Hx Hl]; subst. inversion Hn; subst.
  destruct (IH (conj Hl H5)) as [G1 G2]. split; constructor; auto. rewrite Forall_forall in *. intros q' Hq'.
  clear - H Hx Hq' H1. induction H as [|p0 q0 b r [A1 _] H IH]; [contradiction|]. destruct Hq' as [<-|Hq']; [rewrite <- H1, <- A1; apply Hx; now left|apply IH; [|exact Hq']]. intros x Hxx. apply Hx. now right.
Qed.
Lemma good_perm {B} (b b' : list (vgroup * gdata B)) : dict_perm b b' -> good_dict b -> good_dict b'.
Proof.
  intros [b1 [HP HF]] [Hd Hn]. apply (good_Forall2 b1).
  - clear -HF. induction HF as [|p q b r [H1 H2] H IH]; constructor; [|exact IH]. split; [exact H1|].
    destruct (snd p), (snd q); cbn in *; try contradiction; auto. intros Hn. eapply Permutation_NoDup; [|exact Hn]. now apply Permutation_map.
  - split; [apply (distinct_perm vg_eqb vg_eqb_symm b b1 Hd HP)|]. rewrite Forall_forall in *. intros p Hp. apply Hn. eapply Permutation_in; [symmetry; exact HP|exact Hp].
Qed.
Lemma dget_dict_perm {B} (b b' : list (vgroup * gdata B)) gr d : dict_perm b b' -> good_dict b -> dget vg_eqb gr b = Some d ->
  exists d', dget vg_eqb gr b' = Some d' /\ data_perm d d' /\ names_once d.
Proof.
  intros [b1 [HP HF]] [Hd Hn] E. rewrite (dget_perm vg_eqb vg_eqb_symm vg_eqb_tran b b1 gr Hd HP) in E.
  assert (Hn1 : Forall (fun p => names_once (snd p)) b1) by (rewrite Forall_forall in *; intros p Hp; apply Hn; eapply Permutation_in; [symmetry; exact HP|exact Hp]).
  clear Hd Hn HP b. induction HF as [|[k x] [k' x'] b1 b' [H1 H2] HF IH]; [discriminate|]. inversion Hn1; subst. cbn [fst snd dget] in *. subst k'.
  destruct (vg_eqb gr k); [|now apply IH]. injection E as <-. exists x'. auto.
Qed.
Lemma row_perm {B} (d d' : gdata B) g i : data_perm d d' -> names_once d -> row g d' i = row g d i.
Proof.
  destruct d as [a|m], d' as [a'|m']; cbn [data_perm]; try contradiction; [now intros <-|]. intros HP Hn. unfold row. destruct g as [v|v]; [reflexivity|].
  now rewrite (dget_names m m' _ Hn HP).
Qed.
Lemma cell_perm {B} (d d' : gdata B) g i : data_perm d d' -> names_once d -> cell g d' i = cell g d i.
Proof.
  destruct d as [a|m], d' as [a'|m']; cbn [data_perm]; try contradiction; [now intros <-|]. intros HP Hn. unfold cell. destruct g as [v|v]; [reflexivity|].
  now rewrite (dget_names m m' _ Hn HP).
Qed.
Lemma dict_perm_keys {B} (b b' : list (vgroup * gdata B)) : dict_perm b b' -> Permutation (map fst b') (map fst b).
Proof.
  intros [b1 [HP HF]]. rewrite HP. assert (E : map fst b' = map fst b1); [|now rewrite E]. clear HP. induction HF as [|p q b1 b' [H1 _] HF IH]; [reflexivity|]. cbn. now rewrite H1, IH.
Qed.
Lemma SS_map_fst {K V} (R : K -> K -> Prop) (l : list (K * V)) : StronglySorted (fun p q => R (fst p) (fst q)) l -> StronglySorted R (map fst l).
Proof. intros H. induction H as [|p l H IH Hf]; cbn; constructor; [exact IH|]. now apply Forall_map. Qed.
Lemma jit_result_sorted srt {B} (b : list (vgroup * gdata B)) : sorts srt -> good_dict b ->
  StronglySorted (fun g h => (vg_hash (vg_id g) < vg_hash (vg_id h))%Z) (map fst (jit_result srt b)) /\
  forall g m, In (g, DMap m) (jit_result srt b) -> StronglySorted Z.lt (map fst m).
Proof.
  intros Hs [Hd Hn]. split.
  - apply SS_map_fst. assert (H : StronglySorted (fun p q => vg_lt (fst p) (fst q) = true) (jit_result srt b)).
    { apply (proj2 Hs). apply orders_fst; [intros k; unfold vg_lt; lia|intros a c e; unfold vg_lt; lia|].
      unfold jit_items. clear -Hd. induction Hd as [|p b Hp Hl IH]; cbn [map]; constructor; [|exact IH].
      rewrite Forall_forall in *. intros q Hq. apply in_map_iff in Hq. destruct Hq as [q' [<- Hq']]. cbn [fst]. specialize (Hp q' Hq'). unfold vg_eqb, vg_lt in *. lia. }
    induction H as [|p l H IH Hf]; constructor; [exact IH|]. eapply Forall_impl; [|exact Hf]. intros q. unfold vg_lt. lia.
  - intros g m Hin. unfold jit_result in Hin. apply (Permutation_in _ (jit_dict_perm srt Hs vg_lt _)) in Hin. unfold jit_items in Hin.
    apply in_map_iff in Hin. destruct Hin as [[g' d] [E Hin]]. cbn [fst snd] in E. injection E as <- E. destruct d as [a|m0]; [discriminate|]. cbn [jit_data] in E. injection E as <-.
    rewrite Forall_forall in Hn. specialize (Hn _ Hin). cbn in Hn. apply SS_map_fst.
    assert (H : StronglySorted (fun p q => (fst p <? fst q)%Z = true) (jit_dict srt Z.ltb m0)).
    { apply (proj2 Hs). apply orders_fst; [intros k; lia|intros a c e; lia|]. apply NoDup_pairs in Hn. revert Hn. apply ForallOrdPairs_impl_in. intros x y _ _ Hxy. lia. }
    induction H as [|p l H IH Hf]; constructor; [exact IH|]. eapply Forall_impl; [|exact Hf]. intros q. cbn beta. lia.
Qed.

Lemma vd_unflatten_once {A} v (f : ndarray A) m : vd_unflatten v f = Ok m -> NoDup (map fst m).
Proof.
  assert (G : forall b (flat : list A) ns s, distinct Z.eqb (snd s) -> distinct Z.eqb (snd (fold_left (vd_unflatten_step v b flat) ns s))).
  { intros b flat ns. induction ns as [|x ns IH]; intros s Hd; [exact Hd|]. cbn [fold_left]. apply IH. unfold vd_unflatten_step. destruct b; cbn [snd]; now apply (dset_distinct Z.eqb Z.eqb_sym). }
  unfold vd_unflatten. destruct (negb _); [discriminate|]. destruct (_ =? _); [|destruct (_ =? _); [|discriminate]]; intros E; injection E as <-; apply zeqb_distinct, G; constructor.
Qed.
Lemma beliefs_good {A} `{Num A} (c : bp_ctx A) a b : get_beliefs c a = Ok b -> good_dict b.
Proof.
  unfold get_beliefs, unflatten_beliefs. generalize (map (@Fin A) (flat_beliefs c a)) (st_variable_groups (bs_fg_state (bc_state c))). intros flat gs.
  destruct (fold_left _ gs _) as [r|] eqn:E; [|discriminate]. cbn [bind]. intros Eb. injection Eb as <-.
  assert (G : forall gs s r, (forall s', s = Ok s' -> good_dict (snd s')) -> fold_left (beliefs_step flat) gs s = Ok r -> good_dict (snd r)).
  { clear. intros gs. induction gs as [|g gs IH]; intros s r Hs E; [now apply Hs|]. cbn [fold_left] in E. apply IH in E; [exact E|]. clear E. intros s' E.
    unfold beliefs_step in E. destruct s as [s|]; [|discriminate]. cbn [bind] in E. destruct (vg_unflatten NInf g _) as [d|] eqn:Ed; [|discriminate]. cbn [bind] in E. injection E as <-. cbn [snd].
    destruct (Hs s eq_refl) as [H1 H2]. assert (Hd : names_once d).
    { destruct g as [v|v]; cbn [vg_unflatten] in Ed.
      - destruct (va_unflatten _ _ _); [|discriminate]. injection Ed as <-. exact I.
      - destruct (vd_unflatten _ _) as [m|] eqn:Em; [|discriminate]. injection Ed as <-. cbn. now apply vd_unflatten_once in Em. }
    split; [now apply (dset_distinct vg_eqb vg_eqb_symm)|]. clear -H2 Hd. induction (snd s) as [|[k x] l IH]; cbn [dset]; [repeat constructor; exact Hd|]. inversion H2; subst.
    destruct (vg_eqb g k); constructor; auto. }
  apply (G gs (Ok (0, [])) r); [|exact E]. intros s' Es. injection Es as <-. split; constructor.
Qed.

Lemma C52_results_lemma srt {A} `{Num A} (c : bp_ctx A) a b : sorts srt -> get_beliefs c a = Ok b ->
  exists b', jit_get_beliefs srt c a = Ok b' /\
    StronglySorted (fun g h => (vg_hash (vg_id g) < vg_hash (vg_id h))%Z) (map fst b') /\
    Permutation (map fst b') (map fst b) /\
    (forall g m, In (g, DMap m) b' -> StronglySorted Z.lt (map fst m)) /\
    (forall gr d, dget vg_eqb gr b = Some d -> exists d', dget vg_eqb gr b' = Some d' /\ forall i, row gr d' i = row gr d i) /\
    (forall r, decode_map_states b = Ok r -> exists r', jit_decode_map_states srt b' = Ok r' /\ map fst r' = map fst b' /\
       forall gr d, dget vg_eqb gr r = Some d -> exists d', dget vg_eqb gr r' = Some d' /\ forall i, cell gr d' i = cell gr d i) /\
    (forall r, get_marginals b = Ok r -> exists r', jit_get_marginals srt b' = Ok r' /\ map fst r' = map fst b' /\
       forall gr d, dget vg_eqb gr r = Some d -> exists d', dget vg_eqb gr r' = Some d' /\ forall i, row gr d' i = row gr d i).
Proof.
  intros Hs E. pose proof (beliefs_good c a b E) as Hg. exists (jit_result srt b). unfold jit_get_beliefs. rewrite E.
  pose proof (jit_result_perm srt b Hs) as P1. pose proof (good_perm _ _ P1 Hg) as Hg1.
  destruct (jit_result_sorted srt b Hs Hg) as [S1 S2].
  assert (Hmap : forall B (f : ndarray (ext A) -> res (ndarray B)) r, map_beliefs f b = Ok r ->
    exists r0, map_beliefs f (jit_result srt (jit_result srt b)) = Ok r0 /\ map fst (jit_result srt r0) = map fst (jit_result srt b) /\
      forall gr d, dget vg_eqb gr r = Some d -> exists d', dget vg_eqb gr (jit_result srt r0) = Some d' /\ data_perm d d' /\ names_once d).
  { intros B f r Er. pose proof (jit_result_perm srt (jit_result srt b) Hs) as P2. pose proof (dict_perm_trans _ _ _ P1 P2) as P3.
    destruct (map_beliefs_perm f _ _ r P3 Er) as [r0 [E0 Pr]]. exists r0. split; [exact E0|].
    pose proof (jit_result_perm srt r0 Hs) as P4. pose proof (dict_perm_trans _ _ _ Pr P4) as P5.
    pose proof (good_Forall2 b r (map_beliefs_keys f b r Er) Hg) as Hgr. pose proof (good_perm _ _ Pr Hgr) as Hg0. split.
    - destruct (jit_result_sorted srt r0 Hs Hg0) as [S3 _].
      apply (sorted_unique (fun g h => (vg_hash (vg_id g) <? vg_hash (vg_id h))%Z)).
      + intros x y _ _. lia.
      + revert S3. clear. generalize (map fst (jit_result srt r0)). induction l as [|x l IH]; intros S; inversion S; subst; constructor; [now apply IH|]. eapply Forall_impl; [|eassumption]. intros y. cbn beta. lia.
      + revert S1. clear. generalize (map fst (jit_result srt b)). induction l as [|x l IH]; intros S; inversion S; subst; constructor; [now apply IH|]. eapply Forall_impl; [|eassumption]. intros y. cbn beta. lia.
      + rewrite (dict_perm_keys _ _ P5), (dict_perm_keys _ _ P1). clear - H Er. apply map_beliefs_keys in Er.
        assert (Ek : map fst r = map fst b); [|now rewrite Ek]. induction Er as [|p q b r [H1 _] HF IH]; [reflexivity|]. cbn. now rewrite H1, IH.
    - intros gr d Ed. now apply (dget_dict_perm r _ gr d P5 Hgr). }
  split; [reflexivity|]. split; [exact S1|]. split; [now apply dict_perm_keys|]. split; [exact S2|]. split; [|split].
  - intros gr d Ed. destruct (dget_dict_perm b _ gr d P1 Hg Ed) as [d' [E' [Pd Hn]]]. exists d'. split; [exact E'|]. intros i. now apply row_perm.
  - intros r Er. destruct (Hmap nat (along_last argmax) r Er) as [r0 [E0 [Ek Hl]]]. exists (jit_result srt r0). split; [unfold jit_decode_map_states, decode_map_states; now rewrite E0|].
    split; [exact Ek|]. intros gr d Ed. destruct (Hl gr d Ed) as [d' [E' [Pd Hn]]]. exists d'. split; [exact E'|]. intros i. now apply cell_perm.
  - intros r Er. destruct (Hmap A marginals_array r Er) as [r0 [E0 [Ek Hl]]]. exists (jit_result srt r0). split; [unfold jit_get_marginals, get_marginals; now rewrite E0|].
    split; [exact Ek|]. intros gr d Ed. destruct (Hl gr d Ed) as [d' [E' [Pd Hn]]]. exists d'. split; [exact E'|]. intros i. now apply row_perm.
Qed.

(** ** Registered classes *)
From Coq Require Import String.
Lemma fields_orders {V} (l : list (String.string * V)) :
  let ks := map fst l in
  forallb (fun k => negb (String.ltb k k)) ks = true ->
  forallb (fun a => forallb (fun b => forallb (fun c => negb (String.ltb a b && String.ltb b c) || String.ltb a c) ks) ks) ks = true ->
  ForallOrdPairs (fun a b => String.ltb a b = true \/ String.ltb b a = true) ks ->
  orders (fun p q => String.ltb (fst p) (fst q)) l.
Proof.
  intros ks H1 H2 H3. rewrite forallb_forall in H1, H2. split; [|split].
  - intros p Hp. specialize (H1 (fst p) (in_map fst l p Hp)). now apply negb_true_iff in H1.
  - intros x y z Hx Hy Hz A B. specialize (H2 (fst x) (in_map fst l x Hx)). rewrite forallb_forall in H2. specialize (H2 (fst y) (in_map fst l y Hy)). rewrite forallb_forall in H2.
    specialize (H2 (fst z) (in_map fst l z Hz)). rewrite A, B in H2. exact H2.
  - unfold ks in H3. clear -H3. induction l as [|p l IH]; cbn in *; [constructor|]. inversion H3 as [|? ? Hx Hl]; subst. constructor; [|now apply IH].
    rewrite Forall_forall in *. intros q Hq. apply Hx. now apply in_map.
Qed.
Ltac sort_fields Hs :=
  unfold tree_flatten, jit_dict; rewrite (srt_py _ Hs) by (apply fields_orders; [reflexivity|reflexivity|
    repeat first [apply FOP_nil | apply FOP_cons | apply Forall_nil | apply Forall_cons | (left; reflexivity) | (right; reflexivity)]]).
Lemma C52_arrays_lemma srt {A B} (f : list A -> list B) (a : bp_arrays A) : sorts srt ->
  tree_flatten srt (bp_arrays_fields a) = ([ba_evidence a; ba_ftov_msgs a; ba_log_potentials a], ["evidence"; "ftov_msgs"; "log_potentials"]%string) /\
  bp_arrays_map srt f a = Ok {| ba_log_potentials := f (ba_log_potentials a); ba_ftov_msgs := f (ba_ftov_msgs a); ba_evidence := f (ba_evidence a) |}.
Proof.
  intros Hs. unfold bp_arrays_map. sort_fields Hs. split; reflexivity.
Qed.
Lemma C52_wirings_lemma srt : sorts srt ->
  (forall w, let '(children, keys) := tree_flatten srt (enum_wiring_fields w) in enum_wiring_unflatten keys children = Ok w) /\
  (forall w w', LogicalWiring w' = Ok w -> let '(children, keys) := tree_flatten srt (logical_wiring_fields w) in logical_wiring_unflatten keys children = Ok w).
Proof.
  intros Hs. split.
  - intros [a b c]. sort_fields Hs. reflexivity.
  - intros w w' E. assert (E2 : w' = w).
    { unfold LogicalWiring in E. destruct (0 <? _); [|now injection E]. destruct (negb _); [discriminate|]. destruct (_ <=? _)%Z; [discriminate|]. destruct (_ && _); [discriminate|now injection E]. }
    subst w'. sort_fields Hs. destruct w as [a b p c o]. exact E.
Qed.
