(** * Proofs about factors and factor groups (C10-C15). *)
From Verif Require Import FGroup Lists SpecFactor LemFGraph.
From Coq Require Import Lia.
Local Open Scope nat_scope.

(** ** C10 *)
Lemma shape_eqb_dec s t : {s = t /\ shape_eqb s t = true} + {s <> t /\ shape_eqb s t = false}.
Proof. unfold shape_eqb. destruct (list_eq_dec Nat.eq_dec s t); auto. Qed.

Lemma configs_check vs configs n :
  forallb (fun r => forallb (fun u =>
      let c := get2 0%Z (length vs) (data configs) r u in
      (0 <=? c)%Z && (c <? Z.of_nat (snd (nth u vs (0%Z, 0%nat))))%Z)
    (seq 0 (length vs))) (seq 0 n) = true <->
  (forall r u x, r < n -> nth_error vs u = Some x ->
    (0 <= config_at configs (length vs) r u < Z.of_nat (snd x))%Z).
Proof.
  rewrite forallb_forall. split.
  - intros H r u x Hr Hu. assert (Hlt : u < length vs) by (apply nth_error_Some; congruence).
    assert (Hin : In r (seq 0 n)) by (apply in_seq; lia). specialize (H r Hin).
    rewrite forallb_forall in H. assert (Hiu : In u (seq 0 (length vs))) by (apply in_seq; lia).
    specialize (H u Hiu). cbv zeta in H. rewrite (nth_error_nth _ _ _ Hu) in H.
    unfold get2 in H. unfold config_at. lia.
  - intros H r Hr. apply in_seq in Hr. apply forallb_forall. intros u Hu. apply in_seq in Hu.
    destruct (nth_error vs u) as [x|] eqn:E; [|apply nth_error_None in E; lia].
    specialize (H r u x ltac:(lia) E). rewrite (nth_error_nth _ _ _ E). unfold get2, config_at in *.
    cbv zeta. lia.
Qed.

Lemma EnumFactor_spec {A} vs ci configs pf (pots : ndarray A) :
  (forall f, EnumFactor vs ci configs pf pots = Ok f <->
     ci = true /\ pf = true /\ (exists n, legal_configs vs configs n /\ shape pots = [n]) /\
     f = {| ef_variables := vs; ef_configs := configs; ef_log_potentials := data pots |}) /\
  (forall e, EnumFactor vs ci configs pf pots = Raise e -> e = ValueError).
Proof.
  unfold EnumFactor, legal_configs.
  destruct ci; simpl negb; [|split; [intros f; split; [discriminate|intros [H _]; discriminate]|intros e H; now injection H as <-]].
  destruct pf; simpl negb; [|split; [intros f; split; [discriminate|intros [_ [H _]]; discriminate]|intros e H; now injection H as <-]].
  cbv iota.
  assert (Hbad : forall (f : enum_factor A), Raise ValueError = Ok f -> False) by discriminate.
  destruct (Nat.eqb_spec (length (shape configs)) 2) as [H2|H2]; cbn [negb].
  2: { split; [|intros e H; now injection H as <-]. intros f. split; [discriminate|].
       intros [_ [_ [[n [[Hs _] _]] _]]]. rewrite Hs in H2. now simpl in H2. }
  destruct (shape configs) as [|n [|k [|]]] eqn:Hsh; simpl in H2; try lia. cbn [nth].
  destruct (Nat.eqb_spec (length vs) k) as [Hk|Hk]; cbn [negb].
  2: { split; [|intros e H; now injection H as <-]. intros f. split; [discriminate|].
       intros [_ [_ [[n' [[Hs _] _]] _]]]. congruence. }
  destruct (shape_eqb_dec (shape pots) [n]) as [[Hp ->]|[Hp ->]]; cbn [negb].
  2: { split; [|intros e H; now injection H as <-]. intros f. split; [discriminate|].
       intros [_ [_ [[n' [[Hs _] Hs']] _]]]. congruence. }
  pose proof (configs_check vs configs n) as Hc.
  destruct (forallb _ (seq 0 n)) eqn:E; cbn [negb].
  - split; [|discriminate]. intros f. split.
    + intros H. injection H as <-. split; [reflexivity|]. split; [reflexivity|]. split; [|reflexivity].
      exists n. split; [|exact Hp]. split; [congruence|]. now apply Hc.
    + intros [_ [_ [_ ->]]]. reflexivity.
  - split; [|intros e H; now injection H as <-]. intros f. split; [discriminate|].
    intros [_ [_ [[n' [[Hs Hl] Hs']] _]]]. assert (n' = n) by congruence. subst n'.
    apply Hc in Hl. congruence.
Qed.

(** ** C11 *)
Lemma LogicalFactor_spec t vs :
  (forall f, LogicalFactor t vs = Ok f <->
     2 <= length vs /\ binary_vars vs /\ f = {| lf_type := t; lf_variables := vs |}) /\
  (forall e, LogicalFactor t vs = Raise e -> e = ValueError).
Proof.
  unfold LogicalFactor, binary_vars. destruct (Nat.ltb_spec (length vs) 2) as [H|H].
  - split; [|intros e E; now injection E as <-]. intros f. split; [discriminate|]. intros [H' _]. lia.
  - destruct (forallb (fun v => snd v =? 2) vs) eqn:E; simpl negb; cbv iota.
    + split; [|discriminate]. rewrite forallb_forall in E. intros f. split.
      * intros Hf. injection Hf as <-. split; [exact H|]. split; [|reflexivity].
        intros x Hx. apply Nat.eqb_eq. now apply E.
      * intros [_ [_ ->]]. reflexivity.
    + split; [|intros e H'; now injection H' as <-]. intros f. split; [discriminate|].
      intros [_ [Hb _]]. assert (forallb (fun v => snd v =? 2) vs = true); [|congruence].
      apply forallb_forall. intros x Hx. apply Nat.eqb_eq. now apply Hb.
Qed.

Lemma num_unique_spec l n : num_unique l = n <-> has_distinct l n.
Proof.
  unfold num_unique. split.
  - intros <-. exists (nodup Z.eq_dec l). split; [apply NoDup_nodup|]. split; [reflexivity|].
    intros x. now rewrite nodup_In.
  - intros [l' [Hnd [<- Hin]]].
    assert (H1 : incl (nodup Z.eq_dec l) l') by (intros x Hx; apply Hin; now apply nodup_In in Hx).
    assert (H2 : incl l' (nodup Z.eq_dec l)) by (intros x Hx; apply nodup_In; now apply Hin).
    apply (NoDup_incl_length (NoDup_nodup _ _)) in H1. apply (NoDup_incl_length Hnd) in H2. lia.
Qed.

Lemma fold_left_zmax r x b : (fold_left Z.max r x < b <-> x < b /\ forall y, In y r -> y < b)%Z.
Proof.
  revert x; induction r as [|z r IH]; intros x; simpl.
  - split; [intros H; split; [exact H|intros y []]|intros [H _]; exact H].
  - rewrite IH. split.
    + intros [H1 H2]. split; [lia|]. intros y [<-|Hy]; [lia|auto].
    + intros [H1 H2]. split; [|intros y Hy; apply H2; now right]. specialize (H2 z (or_introl eq_refl)). lia.
Qed.

Lemma zmax_list_lt l b : l <> [] -> (zmax_list l < b <-> forall y, In y l -> y < b)%Z.
Proof.
  intros Hne. destruct l as [|x r]; [congruence|]. simpl. rewrite fold_left_zmax. split.
  - intros [H1 H2] y [<-|Hy]; auto.
  - intros H. split; [apply H; now left|intros y Hy; apply H; now right].
Qed.

Lemma LogicalWiring_spec w :
  let nf := length (lw_children_edge_states w) in
  let idx := map fst (lw_parents_edge_states w) in
  (forall w', LogicalWiring w = Ok w' <->
     w' = w /\ (0 < nf -> has_distinct idx nf /\ (forall i, In i idx -> i < Z.of_nat nf)%Z /\
                (lw_edge_states_offset w = 1 \/ lw_edge_states_offset w = -1)%Z)) /\
  (forall e, LogicalWiring w = Raise e -> e = ValueError).
Proof.
  intros nf idx. unfold LogicalWiring. fold nf. fold idx. cbv zeta.
  destruct (Nat.ltb_spec 0 nf) as [Hn|Hn].
  2: { split; [|discriminate]. intros w'. split; [intros H; injection H as <-; split; [reflexivity|lia]|].
       intros [-> _]. reflexivity. }
  destruct (Nat.eqb_spec (num_unique idx) nf) as [Hu|Hu]; cbn [negb].
  2: { split; [|intros e H; now injection H as <-]. intros w'. split; [discriminate|].
       intros [_ H]. destruct (H Hn) as [H1 _]. apply num_unique_spec in H1. contradiction. }
  assert (Hne : idx <> []).
  { intros E. rewrite E in Hu. unfold num_unique in Hu. simpl in Hu. lia. }
  pose proof (zmax_list_lt idx (Z.of_nat nf) Hne) as Hm.
  destruct (Z.leb_spec (Z.of_nat nf) (zmax_list idx)) as [Hz|Hz].
  1: { split; [|intros e H; now injection H as <-]. intros w'. split; [discriminate|].
       intros [_ H]. destruct (H Hn) as [_ [H2 _]]. apply Hm in H2. lia. }
  destruct (Z.eqb_spec (lw_edge_states_offset w) 1) as [H1|H1]; cbn [negb andb].
  - split; [|discriminate]. intros w'. split; [|intros [-> _]; reflexivity].
    intros H. injection H as <-. split; [reflexivity|]. intros _. split; [now apply num_unique_spec|].
    split; [now apply Hm|now left].
  - destruct (Z.eqb_spec (lw_edge_states_offset w) (-1)) as [H2|H2]; cbn [negb].
    + split; [|discriminate]. intros w'. split; [|intros [-> _]; reflexivity].
      intros H. injection H as <-. split; [reflexivity|]. intros _. split; [now apply num_unique_spec|].
      split; [now apply Hm|now right].
    + split; [|intros e H; now injection H as <-]. intros w'. split; [discriminate|].
      intros [_ H]. destruct (H Hn) as [_ [_ [H3|H3]]]; contradiction.
Qed.

(** ** C12 *)
Lemma EnumFactorGroup_errors {A} `{Num A} id vars configs (pots : option (bool * ndarray A)) :
  (vars <> [] -> shape configs = [] -> EnumFactorGroup id vars configs pots = Raise IndexError) /\
  (forall e, EnumFactorGroup id vars configs pots = Raise e -> vars = [] \/ shape configs <> [] -> e = ValueError).
Proof.
  unfold EnumFactorGroup. destruct vars as [|v0 vr]; [split; [congruence|intros e E _; now injection E as <-]|].
  destruct (shape configs) as [|nc rest]; [split; [reflexivity|intros e _ [E|E]; congruence]|]. split; [discriminate|].
  intros e E _. cbv zeta in E. destruct pots as [[fl p]|]; [|discriminate].
  destruct (shape_eqb _ _); [destruct fl; [discriminate|now injection E as <-]|]. destruct (shape_eqb _ _); [destruct fl; [discriminate|now injection E as <-]|now injection E as <-].
Qed.
Lemma EnumFactorGroup_spec {A} `{Num A} id vars configs (pots : option (bool * ndarray A)) :
  (match pots with Some (_, p) => wf_arr p | None => True end) ->
  (forall g, EnumFactorGroup id vars configs pots = Ok g ->
     exists nc rest, shape configs = nc :: rest /\
       fg_id g = id /\ fg_kind g = KEnum /\ fg_type g = TEnum /\ fg_vars g = vars /\ fg_configs g = configs /\
       length (fg_log_potentials g) = length vars * nc /\
       forall f c d, f < length vars -> c < nc ->
         nth (f * nc + c) (fg_log_potentials g) d =
         match pots with
         | None => nofZ 0
         | Some (_, p) => if length (shape p) =? 1 then nth c (data p) d else nth (f * nc + c) (data p) d
         end) /\
  ((exists g, EnumFactorGroup id vars configs pots = Ok g) <->
     vars <> [] /\ exists nc rest, shape configs = nc :: rest /\
       (pots = None \/ exists p, pots = Some (true, p) /\ (shape p = [nc] \/ shape p = [length vars; nc]))) /\
  (forall e, EnumFactorGroup id vars configs pots = Raise e ->
     e = ValueError \/ (e = IndexError /\ shape configs = [])).
Proof.
  intros Hw. unfold EnumFactorGroup. destruct vars as [|v0 vr].
  { split; [discriminate|]. split; [|intros e E; injection E as <-; now left].
    split; [intros [g E]; discriminate|intros [E _]; congruence]. }
  set (vars := v0 :: vr). assert (Hne : vars <> []) by discriminate.
  destruct (shape configs) as [|nc rest].
  { split; [discriminate|]. split; [|intros e E; injection E as <-; auto].
    split; [intros [g E]; discriminate|intros [_ [nc [rest [E _]]]]; discriminate]. }
  set (nf := length vars). cbv zeta.
  destruct pots as [[fl p]|].
  - destruct (shape_eqb_dec (shape p) [nc]) as [[E1 ->]|[E1 ->]].
    + destruct fl; cbn [bind].
      * split; [|split; [|discriminate]].
        -- intros g E. injection E as <-. exists nc, rest. cbn [fg_id fg_kind fg_type fg_vars fg_configs fg_log_potentials].
           unfold wf_arr in Hw. rewrite E1 in Hw. simpl in Hw.
           assert (Hd : length (data p) = nc) by lia.
           repeat (split; [reflexivity|]). split; [rewrite tile_length, Hd; reflexivity|].
           intros f c d Hf Hc. rewrite E1. cbn [length Nat.eqb].
           replace (f * nc + c) with (f * length (data p) + c) by (rewrite Hd; reflexivity).
           apply nth_tile; lia.
        -- split; [|eauto]. intros _. split; [exact Hne|]. exists nc, rest. split; [reflexivity|].
           right. eauto.
      * split; [discriminate|]. split; [|intros e E; injection E as <-; now left].
        split; [intros [g E]; discriminate|]. intros [_ [nc' [rest' [E [E'|[p' [E' _]]]]]]]; congruence.
    + destruct (shape_eqb_dec (shape p) [nf; nc]) as [[E2 ->]|[E2 ->]].
      * destruct fl; cbn [bind].
        -- split; [|split; [|discriminate]].
           ++ intros g E. injection E as <-. exists nc, rest. cbn [fg_id fg_kind fg_type fg_vars fg_configs fg_log_potentials].
              unfold wf_arr in Hw. rewrite E2 in Hw. cbn [prod] in Hw. rewrite Nat.mul_1_r in Hw.
              repeat (split; [reflexivity|]). split; [exact Hw|].
              intros f c d Hf Hc. rewrite E2. reflexivity.
           ++ split; [|eauto]. intros _. split; [exact Hne|]. exists nc, rest. split; [reflexivity|].
              right. eauto.
        -- split; [discriminate|]. split; [|intros e E; injection E as <-; now left].
           split; [intros [g E]; discriminate|]. intros [_ [nc' [rest' [E [E'|[p' [E' _]]]]]]]; congruence.
      * cbn [bind]. split; [discriminate|]. split; [|intros e E; injection E as <-; now left].
        split; [intros [g E]; discriminate|].
        intros [_ [nc' [rest' [E [E'|[p' [E' [E3|E3]]]]]]]]; congruence.
  - cbn [bind]. split; [|split; [|discriminate]].
    + intros g E. injection E as <-. exists nc, rest. cbn [fg_id fg_kind fg_type fg_vars fg_configs fg_log_potentials].
      repeat (split; [reflexivity|]). split; [apply repeat_length|].
      intros f c d Hf Hc. apply nth_repeat_lt. change (f < nf) in Hf. change (f * nc + c < nf * nc).
      clearbody nf. clear - Hf Hc. nia.
    + split; [|eauto]. intros _. split; [exact Hne|]. exists nc, rest. auto.
Qed.

(** ** C13 *)
Lemma idx_lt n m i j : i < n -> j < m -> i * m + j < n * m.
Proof. nia. Qed.
Lemma idx_inj m i j i' j' : j < m -> j' < m -> i * m + j = i' * m + j' -> i = i' /\ j = j'.
Proof.
  intros H1 H2 E. assert (i = i').
  { destruct (Nat.lt_total i i') as [H|[H|H]]; [exfalso; nia|exact H|exfalso; nia]. }
  subst. lia.
Qed.

Lemma pair_grid_length n m : length (data (pair_grid n m)) = n * m * 2.
Proof.
  simpl. rewrite (flat_map_length_uniform _ _ (m * 2)).
  - rewrite seq_length. lia.
  - intros i _. rewrite (flat_map_length_uniform _ _ 2); [rewrite seq_length; lia|reflexivity].
Qed.

Lemma pair_grid_at n m i j k d :
  i < n -> j < m -> k < 2 ->
  nth ((i * m + j) * 2 + k) (data (pair_grid n m)) d = Z.of_nat (if k =? 0 then i else j).
Proof.
  intros Hi Hj Hk. simpl data. replace ((i * m + j) * 2 + k) with (i * (m * 2) + (j * 2 + k)) by lia.
  assert (Hu : forall x, In x (seq 0 n) ->
            length (flat_map (fun j => [Z.of_nat x; Z.of_nat j]) (seq 0 m)) = m * 2).
  { intros x _. rewrite (flat_map_length_uniform _ _ 2); [now rewrite seq_length|reflexivity]. }
  rewrite (nth_flat_map_uniform _ _ (m * 2) _ _ _ 0); [|exact Hu|now rewrite seq_length|nia].
  rewrite seq_nth by exact Hi. rewrite (nth_flat_map_uniform _ _ 2 _ _ _ 0); [|reflexivity|now rewrite seq_length|lia].
  rewrite seq_nth by exact Hj. destruct k as [|[|]]; [reflexivity|reflexivity|lia].
Qed.

Lemma compute_log_potentials_spec {A} (d : A) junk nf n m mat configs :
  let nc := nth 0 (shape configs) 0 in
  let out := compute_log_potentials d junk nf n m mat configs in
  length out = nf * nc /\
  forall f c x, f < nf -> c < nc ->
    nth (f * nc + c) out x =
    nth (f * (n * m) + Z.to_nat (get2 0%Z 2 (data configs) c 0) * m
         + Z.to_nat (get2 0%Z 2 (data configs) c 1)) mat d.
Proof.
  intros nc out.
  set (val := fun f c => nth (f * (n * m) + Z.to_nat (get2 0%Z 2 (data configs) c 0) * m
         + Z.to_nat (get2 0%Z 2 (data configs) c 1)) mat d).
  assert (H : length out = nf * nc /\ forall f c x, f < nf -> c < nc -> c < nc ->
     nth (f * nc + c) out x = val f c).
  2: { destruct H as [H1 H2]. split; [exact H1|]. intros f c x Hf Hc. now apply H2. }
  unfold out, compute_log_potentials. fold nc.
  apply (for_range_ind (fun c0 o => length o = nf * nc /\
     forall f c x, f < nf -> c < nc -> c < c0 -> nth (f * nc + c) o x = val f c)).
  - split; [unfold np_empty; now rewrite map_length, seq_length|]. lia.
  - intros c0 o Hc0 [Hlo Ho].
    match goal with |- length (for_range nf ?body o) = _ /\ _ =>
      pose proof (for_range_ind (fun f0 o' => length o' = nf * nc /\
        forall f c x, f < nf -> c < nc -> c < c0 \/ (c = c0 /\ f < f0) -> nth (f * nc + c) o' x = val f c)
        body nf o) as Hind
    end.
    destruct Hind as [L1 L2].
    + split; [exact Hlo|]. intros f c x Hf Hc [Hlt|[-> Hlt]]; [|lia]. now apply Ho.
    + intros f0 o' Hf0 [L1 L2]. split; [now rewrite upd_length|].
      intros f c x Hf Hc Hcase. rewrite nth_upd by (rewrite L1; now apply idx_lt).
      destruct (Nat.eqb_spec (f * nc + c) (f0 * nc + c0)) as [E|E].
      * assert (f = f0 /\ c = c0) as [-> ->] by (now apply (idx_inj nc)). reflexivity.
      * apply L2; auto. destruct Hcase as [Hlt|[-> Hlt]]; [now left|].
        right. split; [reflexivity|]. destruct (Nat.eq_dec f f0) as [->|]; [contradiction|lia].
    + split; [exact L1|]. intros f c x Hf Hc Hlt. apply L2; auto. lia.
Qed.

Definition pair_check (n m : nat) (vs : list variable) : res unit :=
  match vs with
  | [a; b] => if (n =? snd a) && (m =? snd b) then Ok tt else Raise ValueError
  | _ => Raise ValueError
  end.

Lemma pair_check_spec n m vs :
  pair_check n m vs = if match vs with [a; b] => (n =? snd a) && (m =? snd b) | _ => false end
                      then Ok tt else Raise ValueError.
Proof. destruct vs as [|a [|b [|]]]; reflexivity. Qed.

Lemma pair_checks n m vars :
  ((exists us, mapM (pair_check n m) vars = Ok us) <-> pair_vars vars n m) /\
  (forall e, mapM (pair_check n m) vars = Raise e -> e = ValueError).
Proof.
  split; [split|].
  - intros [us Hus] vs Hin. apply mapM_Ok in Hus.
    assert (Hv : exists u, pair_check n m vs = Ok u).
    { clear - Hus Hin. induction Hus as [|x y l l' Hxy HF IH]; [destruct Hin|].
      destruct Hin as [<-|Hin]; eauto. }
    destruct Hv as [u Hv]. destruct vs as [|a [|b [|]]]; try discriminate. simpl in Hv.
    destruct (Nat.eqb_spec n (snd a)), (Nat.eqb_spec m (snd b)); try discriminate. eauto.
  - intros H. exists (map (fun _ => tt) vars). apply mapM_all. intros vs Hin.
    destruct (H vs Hin) as [a [b [-> [<- <-]]]]. simpl. now rewrite !Nat.eqb_refl.
  - intros e H. apply mapM_raise in H. destruct H as [vs [_ H]]. rewrite pair_check_spec in H.
    destruct (match vs with [a; b] => _ | _ => _ end); [discriminate|]. now injection H as <-.
Qed.

Lemma Pairwise_body {A} `{Num A} (junk : nat -> A) id vars (fl : bool) (p : ndarray A) :
  vars <> [] -> wf_arr p ->
  let r := PairwiseFactorGroup junk id vars (Some (fl, p)) in
  (forall g, r = Ok g -> exists n m, matrix_fits vars (Some (fl, p)) n m /\ pair_vars vars n m /\
     fg_id g = id /\ fg_kind g = KPairwise n m /\ fg_type g = TEnum /\ fg_vars g = vars /\
     fg_configs g = pair_grid n m /\ length (fg_log_potentials g) = length vars * (n * m) /\
     forall f i j d, f < length vars -> i < n -> j < m ->
       nth (f * (n * m) + (i * m + j)) (fg_log_potentials g) d
       = matrix_entry (Some (fl, p)) n m f i j d) /\
  ((exists g, r = Ok g) <-> exists n m, matrix_fits vars (Some (fl, p)) n m /\ pair_vars vars n m) /\
  (forall e, r = Raise e -> e = ValueError).
Proof.
  intros Hne Hw r. unfold PairwiseFactorGroup in r. destruct vars as [|v0 vr]; [congruence|].
  set (vars := v0 :: vr) in *. cbn [bind] in r. fold pair_check in r.
  set (nd := length (shape p)) in *.
  assert (Hdims : forall n m, matrix_fits vars (Some (fl, p)) n m ->
     fl = true /\ (nd = 2 \/ nd = 3) /\ nth (nd - 2) (shape p) 0 = n /\ nth (nd - 1) (shape p) 0 = m /\
     (nd = 3 -> nth 0 (shape p) 0 = length vars)).
  { intros n m [Hfl [E|E]]; unfold nd; rewrite E; simpl; repeat split; auto; discriminate. }
  destruct (((nd =? 2) || (nd =? 3))%bool) eqn:End; cbn [negb] in r.
  2: { split; [discriminate|]. split; [|intros e E; unfold r in E; congruence].
       split; [intros [g E]; discriminate|]. intros [n [m [Hf _]]]. destruct (Hdims n m Hf) as [_ [[E|E] _]];
       rewrite E in End; discriminate. }
  destruct fl; cbn [negb] in r.
  2: { split; [discriminate|]. split; [|intros e E; unfold r in E; congruence].
       split; [intros [g E]; discriminate|]. intros [n [m [Hf _]]]. destruct (Hdims n m Hf) as [E _]. discriminate. }
  destruct ((nd =? 3) && negb (nth 0 (shape p) 0 =? length vars)) eqn:E3.
  1: { split; [discriminate|]. split; [|intros e E; unfold r in E; congruence].
       split; [intros [g E]; discriminate|]. intros [n [m [Hf _]]].
       destruct (Hdims n m Hf) as [_ [_ [_ [_ E]]]]. apply andb_true_iff in E3. destruct E3 as [E3 E4].
       apply Nat.eqb_eq in E3. rewrite (E E3), Nat.eqb_refl in E4. discriminate. }
  set (n := nth (nd - 2) (shape p) 0) in *. set (m := nth (nd - 1) (shape p) 0) in *. cbv zeta in r.
  change (mapM _ vars) with (mapM (pair_check n m) vars) in r.
  assert (Hfit : matrix_fits vars (Some (true, p)) n m).
  { split; [reflexivity|]. unfold n, m, nd in *.
    destruct (shape p) as [|x [|y [|z [|]]]] eqn:Hs; simpl in *; try discriminate; [now left|].
    right. destruct (Nat.eqb_spec x (S (length vr))) as [->|]; [reflexivity|discriminate]. }
  destruct (pair_checks n m vars) as [Hc1 Hc2].
  destruct (mapM (pair_check n m) vars) as [us|e0] eqn:Em; cbn [bind] in r.
  - assert (Hpv : pair_vars vars n m) by (apply Hc1; eauto).
    split; [|split; [|discriminate]].
    + intros g E. unfold r in E. injection E as <-. exists n, m. split; [exact Hfit|]. split; [exact Hpv|].
      cbn [fg_id fg_kind fg_type fg_vars fg_configs fg_log_potentials].
      repeat (split; [reflexivity|]).
      set (full := if nd =? 3 then data p else tile (data p) (length vars)).
      destruct (compute_log_potentials_spec n0 junk (length vars) n m full (pair_grid n m)) as [L1 L2].
      cbn [shape pair_grid nth] in L1, L2. split; [exact L1|].
      intros f i j d Hf Hi Hj.
      assert (Hc : i * m + j < n * m) by now apply idx_lt.
      etransitivity; [apply (L2 f (i * m + j) d Hf Hc)|]. unfold get2.
      rewrite !pair_grid_at by (assumption || lia). cbn [Nat.eqb]. rewrite !Nat2Z.id.
      rewrite <- Nat.add_assoc. unfold matrix_entry. fold nd. unfold full.
      unfold wf_arr in Hw. destruct Hfit as [_ [Hs|Hs]].
      * assert (Hnd2 : nd = 2) by (unfold nd; now rewrite Hs). rewrite Hnd2. cbn [Nat.eqb].
        rewrite Hs in Hw. cbn [prod] in Hw. rewrite Nat.mul_1_r in Hw.
        rewrite <- Hw at 1. rewrite nth_tile; [|exact Hf|lia]. apply nth_indep. lia.
      * assert (Hnd3 : nd = 3) by (unfold nd; now rewrite Hs). rewrite Hnd3. cbn [Nat.eqb].
        apply nth_indep. rewrite Hw, Hs. cbn [prod]. rewrite Nat.mul_1_r. apply idx_lt; assumption.
    + split; [|intros _; eexists; reflexivity]. intros _. exists n, m. split; [exact Hfit|exact Hpv].
  - specialize (Hc2 e0 eq_refl). subst e0.
    split; [discriminate|]. split; [|intros e E; unfold r in E; congruence].
    split; [intros [g E]; discriminate|]. intros [n' [m' [Hf Hpv]]].
    destruct (Hdims n' m' Hf) as [_ [_ [E1 [E2 _]]]]. fold n in E1. fold m in E2. subst n' m'.
    apply Hc1 in Hpv. destruct Hpv as [us Hus]. discriminate.
Qed.

Lemma Pairwise_None {A} `{Num A} (junk : nat -> A) id a b v0 vr :
  PairwiseFactorGroup junk id ((a :: b :: v0) :: vr) None
  = PairwiseFactorGroup junk id ((a :: b :: v0) :: vr)
      (Some (true, mkArr [snd a; snd b] (repeat n0 (snd a * snd b)))).
Proof. reflexivity. Qed.

Lemma PairwiseFactorGroup_spec {A} `{Num A} (junk : nat -> A) id vars (mat : option (bool * ndarray A)) :
  (match mat with Some (_, p) => wf_arr p | None => True end) ->
  let r := PairwiseFactorGroup junk id vars mat in
  (forall g, r = Ok g -> exists n m, matrix_fits vars mat n m /\ pair_vars vars n m /\
     fg_id g = id /\ fg_kind g = KPairwise n m /\ fg_type g = TEnum /\ fg_vars g = vars /\
     fg_configs g = pair_grid n m /\ length (fg_log_potentials g) = length vars * (n * m) /\
     forall f i j d, f < length vars -> i < n -> j < m ->
       nth (f * (n * m) + (i * m + j)) (fg_log_potentials g) d = matrix_entry mat n m f i j d) /\
  ((exists g, r = Ok g) <-> vars <> [] /\ exists n m, matrix_fits vars mat n m /\ pair_vars vars n m) /\
  (forall e, r = Raise e ->
     e = ValueError \/ e = IndexError /\ mat = None /\ length (nth 0 vars []) < 2).
Proof.
  intros Hw r. destruct vars as [|v0 vr].
  { split; [discriminate|]. split; [|intros e E; unfold r in E; injection E as <-; now left].
    split; [intros [g E]; discriminate|]. intros [E _]. congruence. }
  assert (Hne : v0 :: vr <> []) by discriminate.
  destruct mat as [[fl p]|].
  - destruct (Pairwise_body junk id (v0 :: vr) fl p Hne Hw) as [B1 [B2 B3]]. fold r in B1, B2, B3.
    split; [exact B1|]. split; [|auto]. rewrite B2. tauto.
  - destruct v0 as [|a [|b v0]].
    1, 2: split; [discriminate|]; split; [|intros e E; unfold r in E; injection E as <-; right; simpl; auto];
      split; [intros [g E]; discriminate|]; intros [_ [n [m [_ Hp]]]];
      destruct (Hp _ (or_introl eq_refl)) as [x [y [E _]]]; discriminate.
    unfold r. rewrite Pairwise_None.
    set (p := mkArr [snd a; snd b] (repeat n0 (snd a * snd b))).
    assert (Hwp : wf_arr p) by (unfold wf_arr, p; simpl; rewrite repeat_length; lia).
    destruct (Pairwise_body junk id ((a :: b :: v0) :: vr) true p Hne Hwp) as [B1 [B2 B3]].
    assert (Hfit : forall n m, matrix_fits ((a :: b :: v0) :: vr) (Some (true, p)) n m ->
               n = snd a /\ m = snd b).
    { intros n m [_ [E|E]]; simpl in E; [injection E as <- <-; auto|discriminate]. }
    assert (Hsat : forall n m, pair_vars ((a :: b :: v0) :: vr) n m -> n = snd a /\ m = snd b).
    { intros n m Hp. destruct (Hp _ (or_introl eq_refl)) as [x [y [E [<- <-]]]]. injection E as <- <-. auto. }
    split; [|split; [|auto]].
    + intros g E. destruct (B1 g E) as [n [m [Hf [Hp [H1 [H2 [H3 [H4 [H5 [H6 H7]]]]]]]]]].
      exists n, m. split; [exact I|]. repeat (split; [assumption|]).
      intros f i j d Hfl Hi Hj. rewrite (H7 f i j d Hfl Hi Hj). simpl.
      destruct (Hfit n m Hf) as [-> ->]. apply nth_repeat_lt. now apply idx_lt.
    + rewrite B2. split.
      * intros [n [m [_ Hp]]]. split; [exact Hne|]. exists n, m. split; [exact I|exact Hp].
      * intros [_ [n [m [_ Hp]]]]. exists n, m. split; [|exact Hp]. destruct (Hsat n m Hp) as [-> ->].
        split; [reflexivity|]. now left.
Qed.

(** ** C15 *)
Lemma var_in_spec x l : var_in x l = true <-> In x l.
Proof.
  unfold var_in. rewrite existsb_exists. split.
  - intros [y [Hy E]]. apply var_eqb_eq in E. now subst.
  - intros H. exists x. split; [exact H|apply var_eqb_refl].
Qed.

Lemma set_eqb_spec xs ys : set_eqb xs ys = true <-> same_set xs ys.
Proof.
  unfold set_eqb, same_set. rewrite andb_true_iff, !forallb_forall. split.
  - intros [H1 H2] x. split; intros H; [apply H1 in H|apply H2 in H]; now apply var_in_spec in H.
  - intros H. split; intros x Hx; apply var_in_spec; now apply H.
Qed.
Lemma set_eqb_false xs ys : set_eqb xs ys = false <-> ~ same_set xs ys.
Proof. rewrite <- set_eqb_spec. destruct (set_eqb xs ys); split; congruence. Qed.
Lemma same_set_sym xs ys : same_set xs ys -> same_set ys xs.
Proof. intros H x. symmetry. apply H. Qed.
Lemma same_set_trans xs ys zs : same_set xs ys -> same_set ys zs -> same_set xs zs.
Proof. intros H1 H2 x. etransitivity; [apply H1|apply H2]. Qed.
Lemma set_eqb_sym xs ys : set_eqb xs ys = set_eqb ys xs.
Proof. unfold set_eqb. apply andb_comm. Qed.

Lemma fg_make_factor_valid {A} (g : fgroup A) i vs :
  valid_group g -> nth_error (fg_vars g) i = Some vs ->
  exists f, fg_make_factor g i vs = Ok f /\ is_factor g i f /\ factor_variables f = vs.
Proof.
  intros Hv Hi. assert (Hin : In vs (fg_vars g)) by (eapply nth_error_In; exact Hi).
  assert (Hlt : i < length (fg_vars g)) by (apply nth_error_Some; congruence).
  unfold valid_group in Hv. unfold fg_make_factor, is_factor. destruct (fg_type g).
  - destruct Hv as [nc [Hl Hv]]. specialize (Hv vs Hin). assert (Hs := Hv). destruct Hs as [Hs _].
    rewrite Hs. cbn [nth].
    set (row := slice (fg_log_potentials g) (i * nc) (i * nc + nc)).
    assert (Hrow : length row = nc).
    { unfold row. rewrite slice_length, Hl. replace (i * nc + nc - i * nc) with nc by lia.
      assert (nc <= length (fg_vars g) * nc - i * nc) by nia. lia. }
    destruct (EnumFactor_spec vs true (fg_configs g) true (mkArr [nc] row)) as [HE _].
    rewrite (proj2 (HE {| ef_variables := vs; ef_configs := fg_configs g; ef_log_potentials := row |})).
    + cbn [bind]. eexists. split; [reflexivity|]. cbn [ef_variables ef_configs ef_log_potentials factor_variables].
      split; [|reflexivity]. split; [exact Hi|]. split; [reflexivity|]. split; [exact Hrow|].
      intros c d Hc. unfold row. apply nth_slice. lia.
    + split; [reflexivity|]. split; [reflexivity|]. split; [|reflexivity]. exists nc. split; [exact Hv|reflexivity].
  - destruct (Hv vs Hin) as [H1 H2]. destruct (LogicalFactor_spec TOr vs) as [HE _].
    rewrite (proj2 (HE {| lf_type := TOr; lf_variables := vs |})) by auto. cbn [bind].
    eexists. split; [reflexivity|]. simpl. auto.
  - destruct (Hv vs Hin) as [H1 H2]. destruct (LogicalFactor_spec TAnd vs) as [HE _].
    rewrite (proj2 (HE {| lf_type := TAnd; lf_variables := vs |})) by auto. cbn [bind].
    eexists. split; [reflexivity|]. simpl. auto.
Qed.

Lemma mapM_seq_combine {X Y} (F : nat -> X -> res Y) (P : nat -> X -> Y -> Prop) : forall l a,
  (forall i x, nth_error l i = Some x -> exists y, F (a + i) x = Ok y /\ P (a + i) x y) ->
  exists ys, mapM (fun ix => y <- F (fst ix) (snd ix) ;; Ok (snd ix, y)) (combine (seq a (length l)) l)
             = Ok (combine l ys) /\ length ys = length l /\
    forall i x y, nth_error l i = Some x -> nth_error ys i = Some y -> P (a + i) x y.
Proof.
  induction l as [|x l IH]; intros a H; simpl.
  - exists []. split; [reflexivity|]. split; [reflexivity|]. intros [|i] x y; discriminate.
  - destruct (H 0 x eq_refl) as [y [Hy HP]]. rewrite Nat.add_0_r in Hy, HP. rewrite Hy. cbn [bind].
    destruct (IH (S a)) as [ys [E [Hl HPs]]].
    { intros i x' Hx'. destruct (H (S i) x' Hx') as [y' Hy']. rewrite Nat.add_succ_r in Hy'. eauto. }
    rewrite E. cbn [bind]. exists (y :: ys). split; [reflexivity|]. split; [simpl; congruence|].
    intros [|i] x' y' Hx Hy'; simpl in *.
    + rewrite Nat.add_0_r. congruence.
    + rewrite Nat.add_succ_r. now apply (HPs i x' y').
Qed.

Lemma combine_In_nth {X Y} (xs : list X) (ys : list Y) p :
  In p (combine xs ys) -> exists i, nth_error xs i = Some (fst p) /\ nth_error ys i = Some (snd p).
Proof.
  revert ys; induction xs as [|x xs IH]; intros [|y ys] H; simpl in H; try contradiction.
  destruct H as [<-|H]; [exists 0; auto|]. destruct (IH _ H) as [i Hi]. now exists (S i).
Qed.

Lemma fg_variables_to_factors_valid {A} (g : fgroup A) :
  valid_group g -> distinct_sets (fg_vars g) ->
  exists fs, fg_variables_to_factors g = Ok (combine (fg_vars g) fs) /\ length fs = length (fg_vars g) /\
    forall i f, nth_error fs i = Some f -> is_factor g i f.
Proof.
  intros Hv Hd. unfold fg_variables_to_factors.
  destruct (mapM_seq_combine (fg_make_factor g) (fun i vs f => is_factor g i f) (fg_vars g) 0) as [fs [E [Hl HP]]].
  { intros i vs Hi. destruct (fg_make_factor_valid g i vs Hv Hi) as [f [Hf [His _]]]. exists f. auto. }
  rewrite E. cbn [bind]. exists fs. split; [|split; [exact Hl|]].
  - f_equal. unfold dict_of. rewrite dupdate_new; [reflexivity|apply set_eqb_sym|reflexivity|].
    clear - Hd. revert fs. induction Hd as [|vs vss Hvs Hd IH]; intros [|f fs]; simpl; try constructor.
    + rewrite Forall_forall in *. intros [ws f'] Hin. simpl. apply set_eqb_false. apply Hvs.
      eapply in_combine_l. exact Hin.
    + apply IH.
  - intros i f Hf. assert (Hi : i < length (fg_vars g)) by (rewrite <- Hl; apply nth_error_Some; congruence).
    destruct (nth_error (fg_vars g) i) as [vs|] eqn:Evs; [|apply nth_error_None in Evs; lia].
    apply (HP i vs f Evs Hf).
Qed.

Lemma dget_combine_first {A} q (vars : list (list variable)) (fs : list A) i vs f :
  ForallOrdPairs (fun xs ys => ~ same_set xs ys) vars ->
  nth_error vars i = Some vs -> nth_error fs i = Some f -> same_set q vs ->
  dget set_eqb q (combine vars fs) = Some f.
Proof.
  intros Hd. revert fs i. induction Hd as [|ws vars Hws Hd IH]; intros fs i Hi Hf Hq; [destruct i; discriminate|].
  destruct fs as [|h fs]; [destruct i; discriminate|]. destruct i as [|i]; simpl in *.
  - injection Hi as ->. injection Hf as ->. apply set_eqb_spec in Hq. now rewrite Hq.
  - assert (E : set_eqb q ws = false).
    { apply set_eqb_false. intros Hs. rewrite Forall_forall in Hws. apply (Hws vs).
      - eapply nth_error_In. exact Hi.
      - eapply same_set_trans; [apply same_set_sym; exact Hs|exact Hq]. }
    rewrite E. now apply (IH fs i).
Qed.

Lemma C15_lemma {A} (g : fgroup A) :
  valid_group g -> distinct_sets (fg_vars g) ->
  (forall q i vs, nth_error (fg_vars g) i = Some vs -> same_set q vs ->
     exists f, fg_getitem g q = Ok f /\ is_factor g i f) /\
  (forall q, (forall vs, In vs (fg_vars g) -> ~ same_set q vs) -> fg_getitem g q = Raise ValueError).
Proof.
  intros Hv Hd. destruct (fg_variables_to_factors_valid g Hv Hd) as [fs [E [Hl HP]]].
  unfold fg_getitem. rewrite E. cbn [bind]. split.
  - intros q i vs Hi Hq. assert (Hlt : i < length (fg_vars g)) by (apply nth_error_Some; congruence).
    destruct (nth_error fs i) as [f|] eqn:Ef; [|apply nth_error_None in Ef; lia].
    exists f. rewrite (dget_combine_first q (fg_vars g) fs i vs f Hd Hi Ef Hq). split; [reflexivity|]. now apply HP.
  - intros q Hq. destruct (dget set_eqb q (combine (fg_vars g) fs)) eqn:Eg; [|reflexivity].
    apply dget_In in Eg. destruct Eg as [vs [Hin Heq]]. apply set_eqb_spec in Heq.
    exfalso. apply (Hq vs); [|exact Heq]. eapply in_combine_l. exact Hin.
Qed.

Lemma fg_factors_valid {A} (g : fgroup A) :
  valid_group g -> distinct_sets (fg_vars g) ->
  exists fs, fg_factors g = Ok fs /\ length fs = length (fg_vars g) /\
    forall i f, nth_error fs i = Some f -> is_factor g i f.
Proof.
  intros Hv Hd. destruct (fg_variables_to_factors_valid g Hv Hd) as [fs [E [Hl HP]]].
  exists fs. unfold fg_factors. rewrite E. cbn [bind]. split; [|auto]. f_equal.
  clear - Hl. revert fs Hl. induction (fg_vars g) as [|v vs IH]; intros [|f fs] Hl; simpl in *; try discriminate; [reflexivity|].
  f_equal. apply IH. congruence.
Qed.

(** ** C14 *)
Lemma shape_eqb_false s t : s <> t -> shape_eqb s t = false.
Proof. intros H. destruct (shape_eqb_dec s t) as [[E _]|[_ E]]; [contradiction|exact E]. Qed.

Lemma C14_enum_lemma {A} (g : fgroup A) (d : ndarray A) nc :
  valid_group g -> distinct_sets (fg_vars g) -> fg_vars g <> [] -> fg_kind g = KEnum -> wf_arr d ->
  nth 0 (shape (fg_configs g)) 0 = nc ->
  let nf := length (fg_vars g) in
  let ne := list_sum (map snd (nth 0 (fg_vars g) [])) in
  ((exists f, fg_flatten g d = Ok f) <->
     shape d = [nf; nc] \/ shape d = [nf; ne] \/ shape d = [nc]) /\
  (forall e, fg_flatten g d = Raise e -> e = ValueError) /\
  (shape d = [nf; nc] \/ shape d = [nf; ne] ->
     fg_flatten g d = Ok (data d) /\ fg_unflatten g (vec' (data d)) = Ok d) /\
  (shape d = [nc] ->
     exists f d', fg_flatten g d = Ok f /\ fg_unflatten g (vec' f) = Ok d' /\ shape d' = [nf; nc] /\
       forall i c x, i < nf -> c < nc -> nth (i * nc + c) (data d') x = nth c (data d) x).
Proof.
  intros Hv Hd Hne Hk Hw Hnc nf ne. destruct (fg_factors_valid g Hv Hd) as [fs [E [Hl HP]]].
  assert (Hnf : 0 < nf) by (unfold nf; destruct (fg_vars g); [congruence|simpl; lia]).
  unfold fg_flatten, fg_unflatten. rewrite Hk, E. cbn [bind]. rewrite Hl, Hnc. fold nf.
  unfold fg_first_edges. fold ne. unfold wf_arr in Hw.
  assert (Hu : forall (l : list A), shape (vec' l) = [length l] /\ data (vec' l) = l) by (intros; split; reflexivity).
  destruct (shape_eqb_dec (shape d) [nf; nc]) as [[E1 B1]|[E1 B1]];
  destruct (shape_eqb_dec (shape d) [nf; ne]) as [[E2 B2]|[E2 B2]];
  destruct (shape_eqb_dec (shape d) [nc]) as [[E3 B3]|[E3 B3]]; try congruence; rewrite B1, B2, B3; cbn [negb andb].
  - split; [split; [auto|eauto]|]. split; [discriminate|]. split; [|tauto]. intros _. split; [reflexivity|].
    simpl. rewrite Hw, E1. cbn [prod]. rewrite Nat.mul_1_r, Nat.eqb_refl. rewrite <- E1. destruct d; reflexivity.
  - split; [split; [auto|eauto]|]. split; [discriminate|]. split; [|tauto]. intros _. split; [reflexivity|].
    simpl. rewrite Hw, E1. cbn [prod]. rewrite Nat.mul_1_r, Nat.eqb_refl. rewrite <- E1. destruct d; reflexivity.
  - split; [split; [auto|eauto]|]. split; [discriminate|]. split; [|tauto]. intros _. split; [reflexivity|].
    simpl. rewrite Hw, E2. cbn [prod]. rewrite Nat.mul_1_r.
    destruct (Nat.eqb_spec (nf * ne) (nf * nc)) as [En|En].
    + apply Nat.mul_cancel_l in En; [|lia]. rewrite <- En, <- E2. destruct d; reflexivity.
    + rewrite Nat.eqb_refl, <- E2. destruct d; reflexivity.
  - split; [split; [auto|eauto]|]. split; [discriminate|]. split; [tauto|]. intros _.
    rewrite E3 in Hw. cbn [prod] in Hw. rewrite Nat.mul_1_r in Hw.
    exists (tile (data d) nf), (mkArr [nf; nc] (tile (data d) nf)). split; [reflexivity|]. split; [|split; [reflexivity|]].
    + simpl. rewrite tile_length, Hw, Nat.eqb_refl. reflexivity.
    + intros i c x Hi Hc. simpl data. rewrite <- Hw. apply nth_tile; [exact Hi|lia].
  - split; [split; [intros [f F]; discriminate|tauto]|]. split; [intros e Ee; now injection Ee as <-|]. tauto.
Qed.

Lemma C14_pair_lemma {A} (g : fgroup A) (d : ndarray A) n m :
  valid_group g -> distinct_sets (fg_vars g) -> fg_vars g <> [] -> fg_kind g = KPairwise n m -> wf_arr d ->
  let nf := length (fg_vars g) in
  ((exists f, fg_flatten g d = Ok f) <->
     shape d = [nf; n; m] \/ shape d = [nf; n + m] \/ shape d = [n; m]) /\
  (forall e, fg_flatten g d = Raise e -> e = ValueError) /\
  (shape d = [nf; n; m] \/ (shape d = [nf; n + m] /\ [nf; n + m] <> [n; m] /\ n * m <> n + m) ->
     fg_flatten g d = Ok (data d) /\ fg_unflatten g (vec' (data d)) = Ok d) /\
  (shape d = [nf; n + m] -> [nf; n + m] <> [n; m] -> n * m = n + m ->
     fg_flatten g d = Ok (data d) /\ fg_unflatten g (vec' (data d)) = Ok (mkArr [nf; n; m] (data d))) /\
  (shape d = [n; m] ->
     exists f d', fg_flatten g d = Ok f /\ fg_unflatten g (vec' f) = Ok d' /\ shape d' = [nf; n; m] /\
       forall k c x, k < nf -> c < n * m -> nth (k * (n * m) + c) (data d') x = nth c (data d) x).
Proof.
  intros Hv Hd Hne Hk Hw nf. destruct (fg_factors_valid g Hv Hd) as [fs [E [Hl HP]]].
  assert (Hnf : 0 < nf) by (unfold nf; destruct (fg_vars g); [congruence|simpl; lia]).
  unfold fg_flatten, fg_unflatten. rewrite Hk, E. cbn [bind]. rewrite Hl. fold nf. unfold wf_arr in Hw.
  destruct (shape_eqb_dec (shape d) [nf; n; m]) as [[E1 B1]|[E1 B1]];
  destruct (shape_eqb_dec (shape d) [nf; n + m]) as [[E2 B2]|[E2 B2]];
  destruct (shape_eqb_dec (shape d) [n; m]) as [[E3 B3]|[E3 B3]]; try congruence; rewrite B1, B2, B3; cbn [negb andb].
  - split; [split; [auto|eauto]|]. split; [discriminate|]. split; [|split; congruence]. intros _. split; [reflexivity|].
    simpl. rewrite Hw, E1. cbn [prod]. rewrite Nat.mul_1_r, Nat.eqb_refl. rewrite <- E1. destruct d; reflexivity.
  - (* [nf; n+m] = [n; m]: treated as a shared matrix *)
    split; [split; [auto|eauto]|]. split; [discriminate|]. split; [intros [F|[_ [F _]]]; congruence|].
    split; [congruence|]. intros _. rewrite E3 in Hw. cbn [prod] in Hw. rewrite Nat.mul_1_r in Hw.
    exists (tile (data d) nf), (mkArr [nf; n; m] (tile (data d) nf)). split; [reflexivity|]. split; [|split; [reflexivity|]].
    + simpl. rewrite tile_length, Hw, Nat.eqb_refl. reflexivity.
    + intros k c x Hi Hc. simpl data. rewrite <- Hw. apply nth_tile; [exact Hi|lia].
  - split; [split; [auto|eauto]|]. split; [discriminate|]. split; [|split].
    + intros [F|[_ [_ F]]]; [congruence|]. split; [reflexivity|]. simpl. rewrite Hw, E2. cbn [prod]. rewrite Nat.mul_1_r.
      destruct (Nat.eqb_spec (nf * (n + m)) (nf * (n * m))) as [En|En].
      * apply Nat.mul_cancel_l in En; lia.
      * rewrite Nat.eqb_refl, <- E2. destruct d; reflexivity.
    + intros _ _ F. split; [reflexivity|]. simpl. rewrite Hw, E2. cbn [prod]. rewrite Nat.mul_1_r, F, Nat.eqb_refl. reflexivity.
    + congruence.
  - split; [split; [auto|eauto]|]. split; [discriminate|]. split; [intros [F|[F _]]; congruence|]. split; [congruence|].
    intros _. rewrite E3 in Hw. cbn [prod] in Hw. rewrite Nat.mul_1_r in Hw.
    exists (tile (data d) nf), (mkArr [nf; n; m] (tile (data d) nf)). split; [reflexivity|]. split; [|split; [reflexivity|]].
    + simpl. rewrite tile_length, Hw, Nat.eqb_refl. reflexivity.
    + intros k c x Hi Hc. simpl data. rewrite <- Hw. apply nth_tile; [exact Hi|lia].
  - split; [split; [intros [f F]; discriminate|tauto]|]. split; [intros e Ee; now injection Ee as <-|].
    split; [intros [F|[F _]]; contradiction|]. split; contradiction.
Qed.

Lemma pair_ambiguous n m : n * m = n + m <-> (n = 2 /\ m = 2) \/ (n = 0 /\ m = 0).
Proof.
  split; [|lia]. intros H. destruct n as [|[|[|n]]]; [right; lia|lia|left; lia|].
  destruct m as [|[|m]]; nia.
Qed.

Lemma pair_grid_spec n m :
  shape (pair_grid n m) = [n * m; 2] /\ length (data (pair_grid n m)) = n * m * 2 /\
  (forall i j, i < n -> j < m ->
     config_at (pair_grid n m) 2 (i * m + j) 0 = Z.of_nat i /\
     config_at (pair_grid n m) 2 (i * m + j) 1 = Z.of_nat j) /\
  (forall r, r < n * m -> exists i j, i < n /\ j < m /\ r = i * m + j /\
     forall i' j', i' < n -> j' < m -> r = i' * m + j' -> i' = i /\ j' = j).
Proof.
  split; [reflexivity|]. split; [apply pair_grid_length|]. split.
  - intros i j Hi Hj. unfold config_at. split; rewrite pair_grid_at by lia; reflexivity.
  - intros r Hr. destruct (div_mod_lt n m r Hr) as [H1 [H2 H3]]. exists (r / m), (r mod m).
    split; [exact H1|]. split; [exact H2|]. split; [exact H3|]. intros i' j' Hi' Hj' E.
    apply (idx_inj m); [exact Hj'|exact H2|]. congruence.
Qed.
