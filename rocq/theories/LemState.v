(** * Proofs about log potentials, messages and states (C09, C36-C38, C44). *)
From Verif Require Import FGraph BPState BP Lists SpecVGroup SpecFactor SpecFGraph SpecAdd SpecWiring SpecState.
From Verif Require Import LemVGroup LemFGraph LemEvidence LemFactor LemAdd LemWiring LemGraph.
From Coq Require Import Lia Permutation Reals.
Local Open Scope nat_scope.

(** ** Log potentials *)
Lemma NoDup_map_same {X Y} (f : X -> Y) l x y : NoDup (map f l) -> In x l -> In y l -> f x = f y -> x = y.
Proof.
  induction l as [|z l IH]; intros Hn Hx Hy E; [destruct Hx|]. cbn [map] in Hn.
  inversion Hn as [|? ? Hz Hl]; subst. destruct Hx as [->|Hx], Hy as [->|Hy]; auto.
  - exfalso. apply Hz. rewrite E. now apply in_map.
  - exfalso. apply Hz. rewrite <- E. now apply in_map.
Qed.

Lemma compile_fg_state_inv {A} junk (g : fgraph A) st :
  compile_fg_state junk g = Ok st -> exists w,
    compile_wirings junk (gr_vars_to_starts g) (gr_groups g) = Ok w /\
    st = mk_fg_state g (compute_offsets (gr_groups g)) (compile_log_potentials (gr_groups g)) w /\
    gr_is_list g = true.
Proof.
  unfold compile_fg_state. cbv zeta. unfold guard. destruct (gr_is_list g); [|discriminate]. cbn [bind].
  destruct (compile_wirings _ _ _) as [w|e]; [|discriminate]. cbn [bind]. intros H. injection H as <-. eauto.
Qed.

Lemma flatten_values {A} (g : fgroup A) d :
  pots_group g -> wf_arr d ->
  (forall vals, lp_values g d = Some vals -> fg_flatten g d = Ok vals /\ length vals = group_pots g) /\
  (lp_values g d = None ->
     fg_flatten g d = Raise ValueError \/ exists f, fg_flatten g d = Ok f /\ length f <> group_pots g).
Proof.
  intros [Ht [Hv [Hne [Hds Hk]]]] Hw.
  destruct (fg_factors_valid g Hv Hds) as [fs [E [Hl _]]].
  assert (Hnf : 0 < length (fg_vars g)) by (destruct (fg_vars g); [congruence|simpl; lia]).
  assert (Hnc : group_pots g = length (fg_vars g) * nth 0 (shape (fg_configs g)) 0).
  { unfold valid_group in Hv. rewrite Ht in Hv. destruct Hv as [nc [H1 H2]]. unfold group_pots. rewrite H1.
    destruct (fg_vars g) as [|v r]; [congruence|]. destruct (H2 v (or_introl eq_refl)) as [-> _]. reflexivity. }
  unfold lp_values, fg_flatten, pots_shape. unfold wf_arr in Hw.
  destruct (fg_kind g) as [|n m| |]; try contradiction.
  - rewrite E. cbn [bind]. rewrite Hl. set (nf := length (fg_vars g)) in *. set (nc := nth 0 (shape (fg_configs g)) 0) in *.
    cbn [prod list_sum fold_right]. rewrite Nat.mul_1_r, Nat.add_0_r, Nat.eqb_refl. cbn [andb]. rewrite Bool.orb_diag.
    destruct (shape_eqb (shape d) [nc]) eqn:E1.
    { rewrite !Bool.andb_false_r. split; [|discriminate]. intros vals H. injection H as <-. split; [reflexivity|].
      apply shape_eqb_eq in E1. rewrite E1 in Hw. cbn [prod] in Hw. change (concat (repeat (data d) nf)) with (tile (data d) nf).
      rewrite tile_length, Hw. lia. }
    destruct (shape_eqb (shape d) [nf; nc]) eqn:E2.
    { cbn [negb andb]. split; [|discriminate]. intros vals H. injection H as <-. split; [reflexivity|].
      apply shape_eqb_eq in E2. rewrite E2 in Hw. cbn [prod] in Hw. lia. }
    split; [discriminate|]. intros _. cbn [negb andb].
    destruct (shape_eqb (shape d) [nf; fg_first_edges g]) eqn:E3; cbn [negb andb]; [|now left].
    right. exists (data d). split; [reflexivity|]. rewrite Hw. pose proof (proj1 (shape_eqb_eq _ _) E3) as E3'. rewrite E3' in *.
    apply shape_eqb_neq in E2. cbn [prod]. intros HH. apply E2. f_equal. f_equal. nia.
  - destruct Hk as [Hnm _]. rewrite E. cbn [bind]. rewrite Hl. rewrite Hnm in Hnc. set (nf := length (fg_vars g)) in *.
    cbn [prod list_sum fold_right]. rewrite Nat.mul_1_r, Nat.add_0_r.
    destruct (shape_eqb (shape d) [n; m]) eqn:E1.
    { rewrite !Bool.andb_false_r. split; [|discriminate]. intros vals H. injection H as <-. split; [reflexivity|].
      apply shape_eqb_eq in E1. rewrite E1 in Hw. cbn [prod] in Hw. change (concat (repeat (data d) nf)) with (tile (data d) nf).
      rewrite tile_length, Hw. nia. }
    destruct (shape_eqb (shape d) [nf; n; m]) eqn:E2.
    { cbn [negb andb orb]. split; [|discriminate]. intros vals H. injection H as <-. split; [reflexivity|].
      apply shape_eqb_eq in E2. rewrite E2 in Hw. cbn [prod] in Hw. nia. }
    cbn [negb andb orb]. destruct (Nat.eqb_spec (n * m) (n + m)) as [E4|E4]; cbn [andb].
    + rewrite <- E4. destruct (shape_eqb (shape d) [nf; n * m]) eqn:E3; cbn [negb andb].
      * split; [|discriminate]. intros vals H. injection H as <-. split; [reflexivity|].
        apply shape_eqb_eq in E3. rewrite E3 in Hw. cbn [prod] in Hw. nia.
      * split; [discriminate|]. intros _. now left.
    + split; [discriminate|]. intros _. destruct (shape_eqb (shape d) [nf; n + m]) eqn:E3; cbn [negb andb]; [|now left].
      right. exists (data d). split; [reflexivity|]. rewrite Hw. apply shape_eqb_eq in E3. rewrite E3. cbn [prod]. nia.
Qed.

Section Pots.
  Context {A : Type} (g : fgraph A) (junk : nat -> Z) (st : fg_state A).
  Hypothesis Hc : compile_fg_state junk g = Ok st.
  Let G := all_groups (gr_groups g).
  Hypothesis Hnd : NoDup (map fg_id G).

  Lemma pots_same_id h h' : In h G -> In h' G -> fg_id h = fg_id h' -> h = h'.
  Proof. intros H1 H2 E. exact (NoDup_map_same fg_id G h h' Hnd H1 H2 E). Qed.

  Lemma pots_total : length (st_log_potentials st) = total group_pots G.
  Proof.
    destruct (compile_fg_state_inv _ _ _ Hc) as [w [_ [-> _]]]. cbn [mk_fg_state st_log_potentials].
    rewrite flat_pots_all. apply total_length_concat.
  Qed.

  Lemma pots_block h : In h G -> exists p, dget Z.eqb (fg_id h) (st_group_pots_starts st) = Some p /\
    p + group_pots h <= length (st_log_potentials st) /\
    slice (st_log_potentials st) p (p + group_pots h) = fg_log_potentials h /\
    (forall h' p', In h' G -> fg_id h' <> fg_id h -> dget Z.eqb (fg_id h') (st_group_pots_starts st) = Some p' ->
       p + group_pots h <= p' \/ p' + group_pots h' <= p).
  Proof.
    intros Hh. destruct (compile_fg_state_inv _ _ _ Hc) as [w [_ [Est _]]].
    assert (E1 : st_group_pots_starts st = of_group_pots_starts (compute_offsets (gr_groups g))) by now rewrite Est.
    assert (E2 : st_log_potentials st = concat (pt_values (compile_log_potentials (gr_groups g)))) by now rewrite Est.
    destruct (C18_blocks_lemma (gr_groups g) Hnd) as [B1 B2].
    destruct (compute_offsets_spec (gr_groups g)) as [_ [_ [_ [_ [R5 _]]]]]. specialize (R5 Hnd).
    destruct (proj1 (In_all_groups (gr_groups g) h) Hh) as [t Ht].
    destruct (B1 t h Ht) as [m [p [D1 [D2 [_ [_ [_ [_ D3]]]]]]]].
    exists p. rewrite E1. split; [exact D2|]. split; [|split; [rewrite E2; exact D3|]].
    - rewrite pots_total. pose proof (In_nth_error _ _ Hh) as [i Hi]. destruct (R5 i h Hi) as [_ D4].
      rewrite D2 in D4. injection D4 as ->. fold G. rewrite <- (firstn_skipn i G) at 2.
      rewrite total_app. apply Nat.add_le_mono_l.
      assert (Hs : exists r, skipn i G = h :: r).
      { apply nth_error_split in Hi. destruct Hi as [l1 [l2 [E <-]]]. fold G in E. rewrite E.
        rewrite skipn_app, skipn_all, Nat.sub_diag. cbn [app skipn]. eauto. }
      destruct Hs as [r ->]. unfold total. cbn [map]. change (list_sum (group_pots h :: map group_pots r)) with (group_pots h + list_sum (map group_pots r)). lia.
    - intros h' p' Hh' Hne D4. destruct (proj1 (In_all_groups (gr_groups g) h') Hh') as [t' Ht'].
      destruct (B1 t' h' Ht') as [m' [p'' [D5 [D6 _]]]]. rewrite D4 in D6. injection D6 as <-.
      assert (Hneq : h <> h') by congruence.
      exact (proj2 (B2 h h' m m' p p' Hh Hh' Hneq D1 D5 D2 D4)).
  Qed.

  Lemma pots_unknown k : ~ In k (map fg_id G) -> dget Z.eqb k (st_group_pots_starts st) = None.
  Proof.
    intros Hk. destruct (compile_fg_state_inv _ _ _ Hc) as [w [_ [-> _]]]. cbn [mk_fg_state st_group_pots_starts].
    destruct (compute_offsets_spec (gr_groups g)) as [_ [_ [_ [_ [_ R6]]]]]. exact (proj2 (R6 k Hk)).
  Qed.

  Lemma pots_step_ok h d f p (lp : list A) :
    In h G -> length lp = length (st_log_potentials st) -> fg_flatten h d = Ok f -> length f = group_pots h ->
    dget Z.eqb (fg_id h) (st_group_pots_starts st) = Some p ->
    update_log_potentials_step st lp (h, d) = Ok (blit p f lp).
  Proof.
    intros Hh Hl Hf Hlf Hp. unfold update_log_potentials_step. rewrite Hp, Hf. cbn [bind].
    unfold group_pots in Hlf. rewrite Hlf, Nat.eqb_refl. cbn [negb]. rewrite <- Hlf. apply at_slice_set_vec.
    destruct (pots_block h Hh) as [p' [Hp' [Hle _]]]. rewrite Hp in Hp'. injection Hp' as <-.
    unfold group_pots in Hle. lia.
  Qed.

  Lemma pots_step_inv h d (lp lp' : list A) :
    lp_key_ok G h -> length lp = length (st_log_potentials st) ->
    update_log_potentials_step st lp (h, d) = Ok lp' ->
    exists f p, In h G /\ fg_flatten h d = Ok f /\ length f = group_pots h /\
      dget Z.eqb (fg_id h) (st_group_pots_starts st) = Some p /\ lp' = blit p f lp.
  Proof.
    intros Hk Hl H. destruct Hk as [Hh|Hh].
    - destruct (pots_block h Hh) as [p [Hp _]]. unfold update_log_potentials_step in H. rewrite Hp in H.
      destruct (fg_flatten h d) as [f|e] eqn:Ef; [|discriminate]. cbn [bind] in H.
      destruct (Nat.eqb_spec (length f) (length (fg_log_potentials h))) as [E|E]; [|discriminate].
      exists f, p. split; [exact Hh|]. split; [reflexivity|]. split; [exact E|]. split; [exact Hp|].
      pose proof (pots_step_ok h d f p lp Hh Hl Ef E Hp) as P. unfold update_log_potentials_step in P.
      rewrite Hp, Ef in P. cbn [bind] in P. rewrite (proj2 (Nat.eqb_eq _ _) E) in P. cbn [negb] in P, H. congruence.
    - unfold update_log_potentials_step in H. rewrite pots_unknown in H by exact Hh. discriminate.
  Qed.

  Lemma pots_writes us : forall (lp : list A), length lp = length (st_log_potentials st) ->
    Forall (good_lp_write G) us ->
    exists lp', update_log_potentials st lp us = Ok lp' /\ length lp' = length lp /\
      forall h p, In h G -> dget Z.eqb (fg_id h) (st_group_pots_starts st) = Some p ->
        slice lp' p (p + group_pots h) = last_lp_write us h (slice lp p (p + group_pots h)).
  Proof.
    induction us as [|[h d] us IH]; intros lp Hl HF.
    - exists lp. split; [reflexivity|]. split; [reflexivity|]. reflexivity.
    - apply Forall_cons_iff in HF. destruct HF as [[Hh [Hpg [Hw Hv]]] HF]. cbn [fst snd] in *.
      destruct (lp_values h d) as [vals|] eqn:Ev; [|congruence].
      destruct (flatten_values h d Hpg Hw) as [HV _]. destruct (HV vals Ev) as [Hf Hlf].
      destruct (pots_block h Hh) as [p [Hp [Hle [_ Hdis]]]].
      assert (Hs := pots_step_ok h d vals p lp Hh Hl Hf Hlf Hp).
      destruct (IH (blit p vals lp)) as [lp' [E1 [E2 E3]]]; [now rewrite blit_length|exact HF|].
      exists lp'. split; [|split].
      + unfold update_log_potentials in *. cbn [foldM]. rewrite Hs. cbn [bind]. exact E1.
      + now rewrite E2, blit_length.
      + intros h' p' Hh' Hp'. rewrite (E3 h' p' Hh' Hp'). unfold last_lp_write. cbn [fold_left fst snd]. f_equal.
        destruct (Z.eqb_spec (fg_id h) (fg_id h')) as [E|E].
        * pose proof (pots_same_id h h' Hh Hh' E). subst h'. rewrite Ev. rewrite Hp in Hp'. injection Hp' as <-.
          rewrite <- Hlf. apply slice_blit_same. lia.
        * apply slice_blit_disjoint. destruct (Hdis h' p' Hh' (not_eq_sym E) Hp'); lia.
  Qed.
End Pots.

Lemma lp_setitem_fold {A} us : forall (c : container A) v,
  update_log_potentials (snd (c_state c)) (c_value c) us = Ok v ->
  foldM (fun c u => LogPotentials_setitem c (fst u) (snd u)) us c = Ok (set_value c v).
Proof.
  induction us as [|[k d] us IH]; intros c v H.
  - injection H as <-. destruct c; reflexivity.
  - unfold update_log_potentials in H. cbn [foldM] in H |- *.
    cbn [fst snd]. unfold LogPotentials_setitem at 1, update_log_potentials. cbn [foldM].
    destruct (update_log_potentials_step (snd (c_state c)) (c_value c) (k, d)) as [e|e]; [|discriminate].
    cbn [bind] in *. rewrite (IH (set_value c e) v); [reflexivity|]. exact H.
Qed.

Lemma C36_lemma {A} (g : fgraph A) junk st n (lp : list A) us :
  compile_fg_state junk g = Ok st -> NoDup (map fg_id (all_groups (gr_groups g))) ->
  length lp = length (st_log_potentials st) -> Forall (good_lp_write (all_groups (gr_groups g))) us ->
  exists lp',
    update_log_potentials st lp us = Ok lp' /\
    foldM (fun c u => LogPotentials_setitem c (fst u) (snd u)) us {| c_state := (n, st); c_value := lp |}
    = Ok {| c_state := (n, st); c_value := lp' |} /\
    length lp' = length lp /\
    forall h, In h (all_groups (gr_groups g)) -> exists old,
      LogPotentials_getitem {| c_state := (n, st); c_value := lp |} h = Ok old /\
      length old = length (fg_log_potentials h) /\
      LogPotentials_getitem {| c_state := (n, st); c_value := lp' |} h = Ok (last_lp_write us h old).
Proof.
  intros Hc Hnd Hl HF. destruct (pots_writes g junk st Hc Hnd us lp Hl HF) as [lp' [E1 [E2 E3]]].
  exists lp'. split; [exact E1|]. split; [|split; [exact E2|]].
  - apply (lp_setitem_fold us {| c_state := (n, st); c_value := lp |}). exact E1.
  - intros h Hh. destruct (pots_block g junk st Hc Hnd h Hh) as [p [Hp [Hle _]]]. unfold group_pots in Hle.
    exists (slice lp p (p + group_pots h)). unfold LogPotentials_getitem. cbn [c_state c_value snd]. rewrite Hp.
    split; [reflexivity|]. split; [unfold group_pots; rewrite slice_length; lia|]. f_equal. now apply E3.
Qed.

Lemma C36_initial_lemma {A} (g : fgraph A) junk st n :
  compile_fg_state junk g = Ok st -> NoDup (map fg_id (all_groups (gr_groups g))) ->
  exists c, LogPotentials (n, st) None = Ok c /\
    forall h, In h (all_groups (gr_groups g)) -> LogPotentials_getitem c h = Ok (fg_log_potentials h).
Proof.
  intros Hc Hnd. eexists. split; [reflexivity|]. intros h Hh.
  destruct (pots_block g junk st Hc Hnd h Hh) as [p [Hp [_ [Hs _]]]].
  unfold LogPotentials_getitem. cbn [c_state c_value snd]. rewrite Hp. f_equal. exact Hs.
Qed.

Lemma C36_accept_lemma {A} (g : fgraph A) junk st (lp : list A) h d :
  compile_fg_state junk g = Ok st -> NoDup (map fg_id (all_groups (gr_groups g))) ->
  length lp = length (st_log_potentials st) ->
  (In h (all_groups (gr_groups g)) -> pots_group h -> wf_arr d ->
     ((exists lp', update_log_potentials st lp [(h, d)] = Ok lp') <-> lp_values h d <> None) /\
     (forall e, update_log_potentials st lp [(h, d)] = Raise e -> e = ValueError)) /\
  (In h (all_groups (gr_groups g)) -> fg_kind h = KLogical \/ fg_kind h = KSingle ->
     update_log_potentials st lp [(h, d)] = Raise NotImplementedError) /\
  (~ In (fg_id h) (map fg_id (all_groups (gr_groups g))) ->
     update_log_potentials st lp [(h, d)] = Raise ValueError /\
     forall n, LogPotentials_getitem {| c_state := (n, st); c_value := lp |} h = Raise ValueError).
Proof.
  intros Hc Hnd Hl. unfold update_log_potentials. cbn [foldM]. split; [|split].
  - intros Hh Hpg Hw. destruct (pots_block g junk st Hc Hnd h Hh) as [p [Hp _]].
    destruct (flatten_values h d Hpg Hw) as [H1 H2]. destruct (lp_values h d) as [vals|] eqn:Ev.
    + destruct (H1 vals eq_refl) as [Hf Hlf]. rewrite (pots_step_ok g junk st Hc Hnd h d vals p lp Hh Hl Hf Hlf Hp).
      cbn [bind]. split; [split; [discriminate|eauto]|discriminate].
    + assert (E : update_log_potentials_step st lp (h, d) = Raise ValueError).
      { unfold update_log_potentials_step. rewrite Hp. destruct (H2 eq_refl) as [->|[f [-> Hf]]]; [reflexivity|].
        cbn [bind]. unfold group_pots in Hf. apply Nat.eqb_neq in Hf. now rewrite Hf. }
      rewrite E. cbn [bind]. split; [split; [intros [? ?]; discriminate|congruence]|congruence].
  - intros Hh Hk. destruct (pots_block g junk st Hc Hnd h Hh) as [p [Hp _]].
    unfold update_log_potentials_step. rewrite Hp. unfold fg_flatten. destruct Hk as [-> | ->]; reflexivity.
  - intros Hh. pose proof (pots_unknown g junk st Hc _ Hh) as E. unfold update_log_potentials_step, LogPotentials_getitem.
    cbn [c_state snd]. rewrite E. split; reflexivity.
Qed.

Lemma C09_lp_lemma {A} (g : fgraph A) junk st (lp : list A) us us' :
  compile_fg_state junk g = Ok st -> NoDup (map fg_id (all_groups (gr_groups g))) ->
  length lp = length (st_log_potentials st) ->
  Forall (fun u => lp_key_ok (all_groups (gr_groups g)) (fst u)) us ->
  ForallOrdPairs (fun u v => fg_id (fst u) <> fg_id (fst v)) us -> Permutation us us' ->
  forall lp', update_log_potentials st lp us = Ok lp' <-> update_log_potentials st lp us' = Ok lp'.
Proof.
  intros Hc Hnd Hl HF Hdis HP. set (G := all_groups (gr_groups g)) in *.
  set (R := fun u v : fgroup A * ndarray A => lp_key_ok G (fst u) /\ lp_key_ok G (fst v) /\ fg_id (fst u) <> fg_id (fst v)).
  assert (Hsym : forall x y, R x y -> R y x) by (intros x y [H1 [H2 H3]]; split; [exact H2|split; [exact H1|congruence]]).
  assert (HR : ForallOrdPairs R us).
  { clear - HF Hdis. induction Hdis as [|u us Hu Hus IH]; [constructor|].
    apply Forall_cons_iff in HF. destruct HF as [H1 H2]. constructor; [|auto].
    rewrite Forall_forall in *. intros v Hv. split; [exact H1|]. split; [now apply H2|now apply Hu]. }
  assert (Hinv : forall (s : list A) x s', length s = length (st_log_potentials st) -> update_log_potentials_step st s x = Ok s' ->
            length s' = length (st_log_potentials st)).
  { intros s [k d] s' Hs H. unfold update_log_potentials_step in H. destruct (dget _ _ _); [|discriminate].
    destruct (fg_flatten k d) as [f|]; [|discriminate]. cbn [bind] in H. destruct (negb _); [discriminate|].
    unfold at_slice_set, vec in H. cbn [shape data] in H. destruct (_ =? _) in H; [injection H as <-; now rewrite blit_length|].
    destruct (_ =? 1) in H; [|discriminate]. destruct f; [discriminate|]. injection H as <-. now rewrite blit_length. }
  assert (Hcomm : forall s x y r, length s = length (st_log_potentials st) -> R x y ->
            (s1 <- update_log_potentials_step st s x ;; update_log_potentials_step st s1 y) = Ok r ->
            (s1 <- update_log_potentials_step st s y ;; update_log_potentials_step st s1 x) = Ok r).
  { intros s [h d] [h' d'] r Hs [Hk1 [Hk2 Hne]] H. cbn [fst] in *.
    destruct (update_log_potentials_step st s (h, d)) as [s1|] eqn:E1; [|discriminate]. cbn [bind] in H.
    destruct (pots_step_inv g junk st Hc Hnd h d s s1 Hk1 Hs E1) as [f [p [Hh [Hf [Hlf [Hp ->]]]]]].
    destruct (pots_step_inv g junk st Hc Hnd h' d' _ r Hk2 (eq_trans (blit_length _ _ _) Hs) H) as [f' [p' [Hh' [Hf' [Hlf' [Hp' ->]]]]]].
    rewrite (pots_step_ok g junk st Hc Hnd h' d' f' p' s Hh' Hs Hf' Hlf' Hp'). cbn [bind].
    rewrite (pots_step_ok g junk st Hc Hnd h d f p _ Hh (eq_trans (blit_length _ _ _) Hs) Hf Hlf Hp). f_equal. apply blit_comm.
    destruct (pots_block g junk st Hc Hnd h Hh) as [q [Hq [_ [_ Hd]]]]. rewrite Hp in Hq. injection Hq as <-.
    destruct (Hd h' p' Hh' (not_eq_sym Hne) Hp'); lia. }
  intros lp'. unfold update_log_potentials. split.
  - intros H. eapply (foldM_perm _ (fun s => length s = length (st_log_potentials st)) R); eauto.
  - intros H. eapply (foldM_perm _ (fun s => length s = length (st_log_potentials st)) R us' us); eauto.
    + now symmetry.
    + eapply ForallOrdPairs_perm; eauto.
Qed.

(** ** Edges of a compiled graph *)
Lemma compiled_edges {A} junk (g : fgraph A) st :
  wf_groups (gr_groups g) -> compile_fg_state junk g = Ok st ->
  let es := all_edges (gr_groups g) in
  known (gr_vars_to_starts g) es /\
  all_var_states_for_edges (st_wiring st) = edge_var_states (gr_vars_to_starts g) es /\
  all_edges_num_states (st_wiring st) = map snd es /\
  st_total_factor_num_states st = list_sum (map snd es).
Proof.
  intros Hwf Hc es. destruct (compile_fg_state_inv _ _ _ Hc) as [w [Hw [-> _]]].
  apply compile_wirings_iff in Hw; [|exact Hwf]. destruct Hw as [Hk [_ [_ [_ ->]]]].
  cbn [mk_fg_state st_wiring st_total_factor_num_states].
  destruct (compute_offsets_spec (gr_groups g)) as [_ [_ [R3 _]]].
  assert (Ees : es = concat (concat (map fg_vars (pt_enum (gr_groups g)))) ++ concat (concat (map fg_vars (pt_or (gr_groups g))))
                ++ concat (concat (map fg_vars (pt_and (gr_groups g))))).
  { unfold es, all_edges, all_groups, pt_values. cbn [concat]. rewrite !app_nil_r, !map_app, !concat_app. reflexivity. }
  split; [|split; [|split]].
  - intros x Hx. unfold es, all_edges in Hx. apply in_concat in Hx. destruct Hx as [vs [Hvs Hx]].
    apply in_concat in Hvs. destruct Hvs as [vss [Hvss Hvs]]. apply in_map_iff in Hvss. destruct Hvss as [h [<- Hh]].
    apply (Hk h Hh). apply in_concat. eauto.
  - unfold all_var_states_for_edges. cbn [w_enum w_or w_and ew_ideal ew_var_states_for_edges].
    destruct (lw_type_fields (gr_vars_to_starts g) TOr (logical_factors TOr (gr_groups g))) as [_ [-> _]].
    destruct (lw_type_fields (gr_vars_to_starts g) TAnd (logical_factors TAnd (gr_groups g))) as [_ [-> _]].
    unfold enum_factors. rewrite enum_edges_all, Ees, !edge_var_states_app. reflexivity.
  - unfold all_edges_num_states. cbn [w_enum w_or w_and ew_ideal ew_edges_num_states].
    destruct (lw_type_fields (gr_vars_to_starts g) TOr (logical_factors TOr (gr_groups g))) as [-> _].
    destruct (lw_type_fields (gr_vars_to_starts g) TAnd (logical_factors TAnd (gr_groups g))) as [-> _].
    unfold enum_factors. rewrite enum_edges_all, Ees, !map_app. reflexivity.
  - rewrite R3. unfold es, all_edges. now rewrite edges_states_sum.
Qed.

(** ** Messages *)
Lemma nonzero_eq_app xs ys v :
  nonzero_eq (xs ++ ys) v = nonzero_eq xs v ++ map (fun i => length xs + i) (nonzero_eq ys v).
Proof.
  unfold nonzero_eq. rewrite app_length, seq_app, filter_app. f_equal.
  - apply filter_ext_in. intros i Hi. apply in_seq in Hi. now rewrite app_nth1 by lia.
  - cbn [Nat.add]. generalize (length ys) at 1 2 as n. intros n.
    replace (seq (length xs) n) with (map (fun i => length xs + i) (seq 0 n)).
    + induction (seq 0 n) as [|i l IH]; [reflexivity|]. cbn [map filter]. rewrite app_nth2_plus.
      destruct (_ =? _)%Z; cbn [map]; now rewrite IH.
    + generalize (length xs) as a. clear. induction n as [|n IH]; intros a; [reflexivity|].
      rewrite !seq_S, map_app, IH. reflexivity.
Qed.

Lemma nonzero_edges starts0 es v sv :
  dget var_eqb v starts0 = Some sv -> 0 < snd v -> known starts0 es ->
  (forall x s, In x es -> x <> v -> dget var_eqb x starts0 = Some s -> s + snd x <= sv \/ sv + snd v <= s) ->
  nonzero_eq (edge_var_states starts0 es) (Z.of_nat sv) = map (edge_start es) (edges_of es v).
Proof.
  intros Hv Hpos. induction es as [|x es IH] using rev_ind; intros Hk Hd; [reflexivity|].
  rewrite edge_var_states_app, nonzero_eq_app, IH.
  2: { intros y Hy. apply Hk. apply in_or_app. now left. }
  2: { intros y s Hy. apply Hd. apply in_or_app. now left. }
  unfold edges_of. rewrite app_length. cbn [length]. rewrite seq_app, filter_app, map_app. cbn [seq filter Nat.add].
  rewrite app_nth2, Nat.sub_diag by lia. cbn [nth]. f_equal.
  - rewrite (filter_ext_in (fun e => var_eqb (nth e (es ++ [x]) (0%Z, 0)) v) (fun e => var_eqb (nth e es (0%Z, 0)) v)).
    + apply map_ext_in. intros e He. apply filter_In in He. destruct He as [He _]. apply in_seq in He.
      unfold edge_start. now rewrite map_app, off_app1 by (rewrite map_length; lia).
    + intros e He. apply in_seq in He. now rewrite app_nth1 by lia.
  - rewrite edge_var_states_length.
    assert (Hst : edge_start (es ++ [x]) (length es) = list_sum (map snd es)).
    { unfold edge_start. rewrite map_app, off_app1 by (rewrite map_length; lia). apply off_all. rewrite map_length; lia. }
    destruct (Hk x) as [sx Hsx]; [apply in_or_app; right; now left|].
    unfold edge_var_states. cbn [flat_map]. rewrite app_nil_r. unfold start_of. rewrite Hsx.
    unfold nonzero_eq. rewrite map_length, seq_length.
    destruct (var_eqb x v) eqn:E.
    + apply var_eqb_eq in E. subst x. rewrite Hv in Hsx. injection Hsx as <-.
      cbn [map]. rewrite Hst. destruct (snd v) as [|n] eqn:En; [lia|]. cbn [seq filter map nth]. rewrite Nat.add_0_r, Z.eqb_refl.
      cbn [map]. rewrite Nat.add_0_r. f_equal.
      rewrite (filter_ext_in _ (fun _ => false)).
      * induction (seq 1 n); [reflexivity|assumption].
      * intros i Hi. apply in_seq in Hi. destruct i as [|i]; [lia|]. cbn [nth]. rewrite nth_map_seq by lia.
        apply Z.eqb_neq. lia.
    + apply var_eqb_neq in E. cbn [map].
      rewrite (filter_ext_in _ (fun _ => false)).
      * induction (seq 0 (snd x)); [reflexivity|assumption].
      * intros i Hi. apply in_seq in Hi. rewrite nth_map_seq by lia. apply Z.eqb_neq.
        destruct (Hd x sx) as [H|H]; auto; [apply in_or_app; right; now left|lia|lia].
Qed.

Lemma edge_block es e : e < length es -> edge_start es e + nth e (map snd es) 0 <= list_sum (map snd es).
Proof. intros He. unfold edge_start. rewrite <- off_S by (rewrite map_length; exact He). apply off_le_sum. Qed.

Lemma edge_blocks_disjoint es e e' : e < length es -> e' < length es -> e <> e' ->
  edge_start es e + nth e (map snd es) 0 <= edge_start es e' \/
  edge_start es e' + nth e' (map snd es) 0 <= edge_start es e.
Proof.
  intros He He' Hne. unfold edge_start. rewrite <- !off_S by (rewrite map_length; assumption).
  destruct (Nat.lt_ge_cases e e'); [left|right]; apply off_le_mono; lia.
Qed.

Lemma message_length {A} es (msgs : list A) e : e < length es -> length msgs = list_sum (map snd es) ->
  length (message es msgs e) = nth e (map snd es) 0.
Proof. intros He Hl. unfold message. pose proof (edge_block es e He). rewrite slice_length. lia. Qed.

Lemma fold_blits {A} es (d : ndarray A) l : forall msgs : list A,
  length msgs = list_sum (map snd es) -> wf_arr d ->
  (forall e, In e l -> e < length es /\ shape d = [nth e (map snd es) 0]) ->
  exists msgs', foldM (fun m start => at_slice_set m start (start + length (data d)) d) (map (edge_start es) l) msgs = Ok msgs' /\
    length msgs' = length msgs /\
    forall e, e < length es -> message es msgs' e = if in_dec Nat.eq_dec e l then data d else message es msgs e.
Proof.
  induction l as [|e0 l IH]; intros msgs Hl Hw HI.
  - exists msgs. split; [reflexivity|]. split; [reflexivity|]. intros e _. destruct (in_dec Nat.eq_dec e []) as [[]|_]. reflexivity.
  - destruct (HI e0 (or_introl eq_refl)) as [He0 Hsh]. pose proof (edge_block es e0 He0) as Hb.
    assert (Hlen : length (data d) = nth e0 (map snd es) 0) by (unfold wf_arr in Hw; rewrite Hw, Hsh; cbn [prod]; lia).
    cbn [map foldM]. rewrite (at_slice_set_block msgs (edge_start es e0) (length (data d)) d); [| lia|congruence|exact Hw]. cbn [bind].
    destruct (IH (blit (edge_start es e0) (data d) msgs)) as [m' [E1 [E2 E3]]].
    + now rewrite blit_length.
    + exact Hw.
    + intros e He. apply HI. now right.
    + exists m'. split; [exact E1|]. split; [now rewrite E2, blit_length|]. intros e He. rewrite (E3 e He).
      destruct (in_dec Nat.eq_dec e l) as [Hi|Hi], (in_dec Nat.eq_dec e (e0 :: l)) as [Hj|Hj]; auto.
      * exfalso. apply Hj. now right.
      * destruct Hj as [<-|Hj]; [|contradiction]. unfold message. rewrite <- Hlen. apply slice_blit_same. lia.
      * unfold message. apply slice_blit_disjoint.
        assert (Hne : e0 <> e) by (intros ->; apply Hj; now left).
        destruct (edge_blocks_disjoint es e0 e He0 He Hne); lia.
Qed.

Lemma In_edges_of es v e : In e (edges_of es v) <-> nth_error es e = Some v.
Proof.
  unfold edges_of. rewrite filter_In, in_seq. split.
  - intros [He E]. apply var_eqb_eq in E. rewrite <- E. apply nth_error_nth'. lia.
  - intros H. assert (e < length es) by (apply nth_error_Some; congruence). split; [lia|].
    apply var_eqb_eq. now apply nth_error_nth.
Qed.

Section Msgs.
  Context {A : Type} `{NA : Num A} (gs : list vgroup) (g : fgraph A) (junk : nat -> Z) (st : fg_state A).
  Hypothesis Hok : groups_ok gs.
  Hypothesis Hr : reachable gs g.
  Hypothesis Hc : compile_fg_state junk g = Ok st.
  Hypothesis Hwf : wf_groups (gr_groups g).
  Let es := all_edges (gr_groups g).

  Lemma msgs_step v d (msgs : list A) :
    length msgs = st_total_factor_num_states st -> good_msg_write (all_vars gs) (v, d) ->
    exists msgs', update_ftov_msgs_step st msgs (v, d) = Ok msgs' /\ length msgs' = length msgs /\
      forall e x, nth_error es e = Some x ->
        message es msgs' e = if var_eqb v x then map (fun y => ndiv y (nofZ (Z.of_nat (num_edges_of es x)))) (data d)
                             else message es msgs e.
  Proof.
    intros Hl [Hv [Hw Hs]]. cbn [fst snd] in *.
    destruct (compile_fg_state_layout _ _ _ _ Hok Hr Hc) as [_ [H2 _]].
    destruct (compiled_edges _ _ _ Hwf Hc) as [K1 [K2 [K3 K4]]]. fold es in K1, K2, K3, K4.
    destruct (reachable_layout _ _ Hok Hr) as [_ [L2 _]].
    destruct (var_block gs Hok v Hv) as [sv [Hsv _]].
    unfold update_ftov_msgs_step. rewrite H2, Hsv, Hs, shape_eqb_refl. cbn [negb]. rewrite K2, L2.
    rewrite K4 in Hl. rewrite L2 in K1.
    assert (Hlen : length (data d) = snd v) by (unfold wf_arr in Hw; rewrite Hw, Hs; cbn [prod]; lia).
    destruct (Nat.eq_dec (snd v) 0) as [Z0|Z0].
    - exists msgs. split; [|split; [reflexivity|]].
      + generalize (Z.of_nat (length (nonzero_eq (edge_var_states (layout (all_vars gs)) es) (Z.of_nat sv)))) as k. intros k.
        generalize (nonzero_eq (edge_var_states (layout (all_vars gs)) es) (Z.of_nat sv)) as l.
        rewrite Z0 in *. destruct (data d); [|discriminate]. cbn [map].
        induction l as [|p l IH]; [reflexivity|]. cbn [foldM].
        unfold at_slice_set at 1. cbn [shape data blit]. rewrite Nat.add_0_r, Nat.sub_diag. exact IH.
      + intros e x He. destruct (var_eqb v x) eqn:E; [|reflexivity]. apply var_eqb_eq in E. subst x.
        rewrite Z0 in Hlen. destruct (data d); [|discriminate]. cbn [map].
        assert (He' : e < length es) by (apply nth_error_Some; congruence).
        pose proof (message_length es msgs e He' Hl) as HL. rewrite (nth_map _ _ _ _ (0%Z, 0)) in HL by exact He'.
        rewrite (nth_error_nth _ _ _ He), Z0 in HL. destruct (message es msgs e); [reflexivity|discriminate].
    - rewrite (nonzero_edges _ _ v sv); [|exact Hsv|lia|exact K1|].
      2: { intros x s Hx Hne Hsx. destruct (blocks_disjoint gs Hok _ _ _ _ Hsx Hsv Hne); auto. }
      rewrite map_length. set (k := nofZ (Z.of_nat (length (edges_of es v)))).
      set (d' := mkArr [snd v] (map (fun x => ndiv x k) (data d))).
      destruct (fold_blits es d' (edges_of es v) msgs) as [m' [E1 [E2 E3]]].
      + exact Hl.
      + unfold wf_arr, d'. cbn [shape data prod]. rewrite map_length. lia.
      + intros e He. apply In_edges_of in He. assert (He' : e < length es) by (apply nth_error_Some; congruence).
        split; [exact He'|]. unfold d'. cbn [shape]. rewrite (nth_map _ _ _ _ (0%Z, 0)) by exact He'.
        now rewrite (nth_error_nth _ _ _ He).
      + exists m'. replace (length (data d')) with (snd v) in E1 by (unfold d'; cbn [data]; now rewrite map_length).
        split; [exact E1|]. split; [exact E2|]. intros e x He.
        assert (He' : e < length es) by (apply nth_error_Some; congruence). rewrite (E3 e He').
        destruct (in_dec Nat.eq_dec e (edges_of es v)) as [Hi|Hi].
        * apply In_edges_of in Hi. assert (x = v) by congruence. subst x. rewrite var_eqb_refl. reflexivity.
        * destruct (var_eqb v x) eqn:E; [|reflexivity]. apply var_eqb_eq in E. subst x. exfalso. apply Hi. now apply In_edges_of.
  Qed.

  Lemma msgs_writes us : forall (msgs : list A),
    length msgs = st_total_factor_num_states st -> Forall (good_msg_write (all_vars gs)) us ->
    exists msgs', update_ftov_msgs st msgs us = Ok msgs' /\ length msgs' = length msgs /\
      forall e x, nth_error es e = Some x ->
        message es msgs' e = last_msg_write es us x (message es msgs e).
  Proof.
    induction us as [|[v d] us IH]; intros msgs Hl HF.
    - exists msgs. split; [reflexivity|]. split; reflexivity.
    - apply Forall_cons_iff in HF. destruct HF as [H1 HF].
      destruct (msgs_step v d msgs Hl H1) as [m1 [E1 [E2 E3]]].
      destruct (IH m1) as [m2 [F1 [F2 F3]]]; [congruence|exact HF|].
      exists m2. split; [|split; [congruence|]].
      + unfold update_ftov_msgs in *. cbn [foldM]. rewrite E1. exact F1.
      + intros e x He. rewrite (F3 e x He), (E3 e x He). reflexivity.
  Qed.
End Msgs.

Lemma ftov_setitem_fold {A} `{Num A} us : forall (c : container A) v,
  update_ftov_msgs (snd (c_state c)) (c_value c) us = Ok v ->
  foldM (fun c u => FToVMessages_setitem c (fst u) (snd u)) us c = Ok (set_value c v).
Proof.
  induction us as [|[k d] us IH]; intros c v E.
  - injection E as <-. destruct c; reflexivity.
  - unfold update_ftov_msgs in E. cbn [foldM] in E |- *.
    cbn [fst snd]. unfold FToVMessages_setitem at 1, update_ftov_msgs. cbn [foldM].
    destruct (update_ftov_msgs_step (snd (c_state c)) (c_value c) (k, d)) as [e|e]; [|discriminate].
    cbn [bind] in *. rewrite (IH (set_value c e) v); [reflexivity|]. exact E.
Qed.

Lemma C37_lemma {A} `{Num A} gs (g : fgraph A) junk st n (msgs : list A) us :
  groups_ok gs -> reachable gs g -> compile_fg_state junk g = Ok st -> wf_groups (gr_groups g) ->
  length msgs = st_total_factor_num_states st -> Forall (good_msg_write (all_vars gs)) us ->
  let es := all_edges (gr_groups g) in
  exists msgs', update_ftov_msgs st msgs us = Ok msgs' /\
    foldM (fun c u => FToVMessages_setitem c (fst u) (snd u)) us {| c_state := (n, st); c_value := msgs |}
    = Ok {| c_state := (n, st); c_value := msgs' |} /\
    length msgs' = length msgs /\
    list_sum (map snd es) = length msgs /\
    forall e x, nth_error es e = Some x ->
      message es msgs' e = last_msg_write es us x (message es msgs e).
Proof.
  intros Hok Hr Hc Hwf Hl HF es. destruct (msgs_writes gs g junk st Hok Hr Hc Hwf us msgs Hl HF) as [m [E1 [E2 E3]]].
  exists m. split; [exact E1|]. split; [|split; [exact E2|split; [|exact E3]]].
  - apply (ftov_setitem_fold us {| c_state := (n, st); c_value := msgs |}). exact E1.
  - destruct (compiled_edges _ _ _ Hwf Hc) as [_ [_ [_ K4]]]. unfold es. congruence.
Qed.

Lemma C37_errors_lemma {A} `{Num A} gs (g : fgraph A) junk st (msgs : list A) v d :
  groups_ok gs -> reachable gs g -> compile_fg_state junk g = Ok st ->
  ~ In v (all_vars gs) \/ shape d <> [snd v] ->
  update_ftov_msgs st msgs [(v, d)] = Raise ValueError.
Proof.
  intros Hok Hr Hc Hbad. destruct (compile_fg_state_layout _ _ _ _ Hok Hr Hc) as [_ [H2 _]].
  unfold update_ftov_msgs. cbn [foldM]. unfold update_ftov_msgs_step. rewrite H2.
  destruct (dget var_eqb v (layout (all_vars gs))) as [s|] eqn:E; [|reflexivity].
  destruct Hbad as [Hn|Hn]; [exfalso; apply Hn; eapply dget_layout_In; exact E|].
  apply shape_eqb_neq in Hn. rewrite Hn. reflexivity.
Qed.

Lemma C37_sum_lemma gs (g : fgraph R) junk st (msgs : list R) v d :
  groups_ok gs -> reachable gs g -> compile_fg_state junk g = Ok st -> wf_groups (gr_groups g) ->
  length msgs = st_total_factor_num_states st -> good_msg_write (all_vars gs) (v, d) ->
  let es := all_edges (gr_groups g) in
  edges_of es v <> [] ->
  exists msgs', update_ftov_msgs st msgs [(v, d)] = Ok msgs' /\
    forall s, fold_right Rplus 0%R (map (fun e => nth s (message es msgs' e) 0%R) (edges_of es v)) = nth s (data d) 0%R.
Proof.
  intros Hok Hr Hc Hwf Hl HG es Hne.
  destruct (msgs_step gs g junk st Hok Hr Hc Hwf v d msgs Hl HG) as [m [E1 [E2 E3]]].
  exists m. split; [unfold update_ftov_msgs; cbn [foldM]; now rewrite E1|]. intros s. fold es in E3.
  assert (Hk : IZR (Z.of_nat (length (edges_of es v))) <> 0%R).
  { apply not_0_IZR. destruct (edges_of es v); [congruence|]. simpl length. lia. }
  rewrite (map_ext_in _ (fun _ => (nth s (data d) 0 / IZR (Z.of_nat (length (edges_of es v))))%R)).
  - set (k := length (edges_of es v)) in *.
    assert (Hsum : forall (X : Type) (l : list X) (y : R), fold_right Rplus 0%R (map (fun _ => y) l) = (IZR (Z.of_nat (length l)) * y)%R).
    { intros X l y. induction l as [|z l IH]; [simpl; ring|]. cbn [map fold_right length]. rewrite IH, Nat2Z.inj_succ, succ_IZR. ring. }
    rewrite Hsum. fold k. field. exact Hk.
  - intros e He. apply In_edges_of in He. rewrite (E3 e v He), var_eqb_refl.
    destruct (Nat.lt_ge_cases s (length (data d))) as [Hs|Hs].
    + rewrite (nth_map _ _ _ _ 0%R) by exact Hs. reflexivity.
    + rewrite (nth_overflow (data d)) by exact Hs. rewrite nth_overflow by (rewrite map_length; exact Hs).
      unfold Rdiv. ring.
Qed.

(** ** C38: update, init and to_bp_state *)
Lemma at_slice_set_length {A} (xs : list A) a b v ys : at_slice_set xs a b v = Ok ys -> length ys = length xs.
Proof.
  unfold at_slice_set. destruct (shape v) as [|k [|]]; [| |discriminate].
  - destruct (data v); [discriminate|]. intros H. injection H as <-. apply blit_length.
  - destruct (k =? _); [intros H; injection H as <-; apply blit_length|].
    destruct (k =? 1); [|discriminate]. destruct (data v); [discriminate|].
    intros H. injection H as <-. apply blit_length.
Qed.
Lemma foldM_length {A U} (f : list A -> U -> res (list A)) us :
  (forall xs u ys, f xs u = Ok ys -> length ys = length xs) ->
  forall xs ys, foldM f us xs = Ok ys -> length ys = length xs.
Proof.
  intros Hf. induction us as [|u us IH]; intros xs ys H; [injection H as <-; reflexivity|].
  cbn [foldM] in H. destruct (f xs u) as [zs|] eqn:E; [|discriminate]. cbn [bind] in H.
  rewrite (IH _ _ H). eapply Hf; exact E.
Qed.
Lemma update_log_potentials_length {A} (st : fg_state A) us lp lp' :
  update_log_potentials st lp us = Ok lp' -> length lp' = length lp.
Proof.
  apply foldM_length. intros xs [h d] ys H. unfold update_log_potentials_step in H. destruct (dget _ _ _); [|discriminate].
  destruct (fg_flatten h d); [|discriminate]. cbn [bind] in H. destruct (negb _); [discriminate|]. eapply at_slice_set_length; exact H.
Qed.
Lemma update_ftov_msgs_length {A} `{Num A} (st : fg_state A) us ms ms' :
  update_ftov_msgs st ms us = Ok ms' -> length ms' = length ms.
Proof.
  apply foldM_length. intros xs [v d] ys E. unfold update_ftov_msgs_step in E. destruct (dget _ _ _); [|discriminate].
  destruct (negb _); [discriminate|]. revert E. apply foldM_length. intros. eapply at_slice_set_length; eassumption.
Qed.
Lemma update_evidence_length {A} (st : fg_state A) us ev ev' :
  update_evidence st ev us = Ok ev' -> length ev' = length ev.
Proof.
  apply foldM_length. intros xs [k d] ys E. unfold update_evidence_step in E. destruct k as [h|v|]; [| |discriminate].
  - destruct (existsb _ _); [|discriminate]. destruct (vg_variables h); [discriminate|].
    destruct (dget _ _ _); [|discriminate]. destruct (vg_flatten h d); [|discriminate]. cbn [bind] in E.
    eapply at_slice_set_length; exact E.
  - destruct (dget _ _ _); [|discriminate]. destruct (gdata_array d); [|discriminate]. cbn [bind] in E.
    eapply at_slice_set_length; exact E.
Qed.

Lemma C38_update_lemma {A} `{Num A} (c : bp_ctx A) arrs lu mu eu a' :
  let st := bs_fg_state (bc_state c) in
  let bs := bc_state c in
  let a := match arrs with Some a => a | None =>
             {| ba_log_potentials := c_value (bs_log_potentials bs); ba_ftov_msgs := c_value (bs_ftov_msgs bs);
                ba_evidence := c_value (bs_evidence bs) |} end in
  (bp_update c arrs lu mu eu = Ok a' <->
     match lu with Some us => update_log_potentials st (ba_log_potentials a) us = Ok (ba_log_potentials a')
                 | None => ba_log_potentials a' = ba_log_potentials a end /\
     match mu with Some us => update_ftov_msgs st (ba_ftov_msgs a) us = Ok (ba_ftov_msgs a')
                 | None => ba_ftov_msgs a' = ba_ftov_msgs a end /\
     match eu with Some us => update_evidence st (ba_evidence a) us = Ok (ba_evidence a')
                 | None => ba_evidence a' = ba_evidence a end) /\
  (bp_update c arrs lu mu eu = Ok a' ->
     length (ba_log_potentials a') = length (ba_log_potentials a) /\
     length (ba_ftov_msgs a') = length (ba_ftov_msgs a) /\
     length (ba_evidence a') = length (ba_evidence a)).
Proof.
  intros st bs a.
  assert (Hiff : bp_update c arrs lu mu eu = Ok a' <->
     match lu with Some us => update_log_potentials st (ba_log_potentials a) us = Ok (ba_log_potentials a')
                 | None => ba_log_potentials a' = ba_log_potentials a end /\
     match mu with Some us => update_ftov_msgs st (ba_ftov_msgs a) us = Ok (ba_ftov_msgs a')
                 | None => ba_ftov_msgs a' = ba_ftov_msgs a end /\
     match eu with Some us => update_evidence st (ba_evidence a) us = Ok (ba_evidence a')
                 | None => ba_evidence a' = ba_evidence a end).
  { unfold bp_update. fold st. fold bs. fold a. destruct a' as [l m e]. cbn [ba_log_potentials ba_ftov_msgs ba_evidence].
    split.
    - intros E. destruct lu as [lu|]; [destruct (update_log_potentials _ _ lu); [|discriminate]|]; cbn [bind] in E;
      (destruct mu as [mu|]; [destruct (update_ftov_msgs _ _ mu); [|discriminate]|]); cbn [bind] in E;
      (destruct eu as [eu|]; [destruct (update_evidence _ _ eu); [|discriminate]|]); cbn [bind] in E; injection E as <- <- <-; auto.
    - intros [E1 [E2 E3]]. destruct lu; rewrite ?E1; cbn [bind]; destruct mu; rewrite ?E2; cbn [bind]; destruct eu; rewrite ?E3; cbn [bind]; congruence. }
  split; [exact Hiff|]. intros E. apply Hiff in E. destruct E as [E1 [E2 E3]]. split; [|split].
  - destruct lu; [eapply update_log_potentials_length; exact E1|now rewrite E1].
  - destruct mu; [eapply update_ftov_msgs_length; exact E2|now rewrite E2].
  - destruct eu; [eapply update_evidence_length; exact E3|now rewrite E3].
Qed.

Lemma LogPotentials_Some {A} (so : state_obj A) v c : LogPotentials so (Some (vec v)) = Ok c <->
  length v = length (st_log_potentials (snd so)) /\ c = {| c_state := so; c_value := v |}.
Proof.
  unfold LogPotentials, vec. cbn [shape data]. destruct (shape_eqb _ _) eqn:E.
  - apply shape_eqb_eq in E. injection E as E. split; [intros X; injection X as <-; auto|intros [_ ->]; reflexivity].
  - apply shape_eqb_neq in E. split; [discriminate|]. intros [E1 _]. exfalso. apply E. now rewrite E1.
Qed.
Lemma FToVMessages_Some {A} `{Num A} (so : state_obj A) v c : FToVMessages so (Some (vec v)) = Ok c <->
  length v = st_total_factor_num_states (snd so) /\ c = {| c_state := so; c_value := v |}.
Proof.
  unfold FToVMessages, vec. cbn [shape data]. destruct (shape_eqb _ _) eqn:E.
  - apply shape_eqb_eq in E. injection E as E. split; [intros X; injection X as <-; auto|intros [_ ->]; reflexivity].
  - apply shape_eqb_neq in E. split; [discriminate|]. intros [E1 _]. exfalso. apply E. now rewrite E1.
Qed.
Lemma Evidence_Some {A} `{Num A} (so : state_obj A) v c : Evidence so (Some (vec v)) = Ok c <->
  length v = st_num_var_states (snd so) /\ c = {| c_state := so; c_value := v |}.
Proof.
  unfold Evidence, vec. cbn [shape data]. destruct (shape_eqb _ _) eqn:E.
  - apply shape_eqb_eq in E. injection E as E. split; [intros X; injection X as <-; auto|intros [_ ->]; reflexivity].
  - apply shape_eqb_neq in E. split; [discriminate|]. intros [E1 _]. exfalso. apply E. now rewrite E1.
Qed.

Lemma C38_to_state_lemma {A} `{Num A} (c : bp_ctx A) (a : bp_arrays A) :
  let so := c_state (bs_log_potentials (bc_state c)) in
  let ok := length (ba_log_potentials a) = length (st_log_potentials (snd so)) /\
            length (ba_ftov_msgs a) = st_total_factor_num_states (snd so) /\
            length (ba_evidence a) = st_num_var_states (snd so) in
  (forall bs, to_bp_state c a = Ok bs <-> ok /\
     bs = {| bs_log_potentials := {| c_state := so; c_value := ba_log_potentials a |};
             bs_ftov_msgs := {| c_state := so; c_value := ba_ftov_msgs a |};
             bs_evidence := {| c_state := so; c_value := ba_evidence a |} |}) /\
  (forall e, to_bp_state c a = Raise e -> e = ValueError /\ ~ ok).
Proof.
  intros so ok. unfold to_bp_state. cbv zeta. fold so.
  assert (L := LogPotentials_Some so (ba_log_potentials a)). assert (M := FToVMessages_Some so (ba_ftov_msgs a)).
  assert (V := Evidence_Some so (ba_evidence a)).
  destruct (LogPotentials so (Some (vec (ba_log_potentials a)))) as [l|e] eqn:E1; cbn [bind].
  2: { split.
       - intros bs. split; [discriminate|]. intros [[K1 _] _]. exfalso. pose proof (proj2 (L _) (conj K1 eq_refl)). discriminate.
       - intros e' X. injection X as <-. split.
         + unfold LogPotentials in E1. destruct (shape_eqb _ _); congruence.
         + intros [K1 _]. pose proof (proj2 (L _) (conj K1 eq_refl)). discriminate. }
  destruct (proj1 (L l) eq_refl) as [K1 ->].
  destruct (FToVMessages so (Some (vec (ba_ftov_msgs a)))) as [m|e] eqn:E2; cbn [bind].
  2: { split.
       - intros bs. split; [discriminate|]. intros [[_ [K2 _]] _]. exfalso. pose proof (proj2 (M _) (conj K2 eq_refl)). discriminate.
       - intros e' X. injection X as <-. split.
         + unfold FToVMessages in E2. destruct (shape_eqb _ _); congruence.
         + intros [_ [K2 _]]. pose proof (proj2 (M _) (conj K2 eq_refl)). discriminate. }
  destruct (proj1 (M m) eq_refl) as [K2 ->].
  destruct (Evidence so (Some (vec (ba_evidence a)))) as [v|e] eqn:E3; cbn [bind].
  2: { split.
       - intros bs. split; [discriminate|]. intros [[_ [_ K3]] _]. exfalso. pose proof (proj2 (V _) (conj K3 eq_refl)). discriminate.
       - intros e' X. injection X as <-. split.
         + unfold Evidence in E3. destruct (shape_eqb _ _); congruence.
         + intros [_ [_ K3]]. pose proof (proj2 (V _) (conj K3 eq_refl)). discriminate. }
  destruct (proj1 (V v) eq_refl) as [K3 ->].
  unfold BPState, same_state. cbn [c_state]. rewrite Nat.eqb_refl. cbn [negb orb].
  split; [|discriminate]. intros bs. split.
  - intros X. injection X as <-. split; [split; auto|reflexivity].
  - intros [_ ->]. reflexivity.
Qed.

(** ** C44: one state object *)
Lemma C44_bpstate_lemma {A} (lp ms ev : container A) :
  ((exists bs, BPState lp ms ev = Ok bs) <->
     fst (c_state lp) = fst (c_state ms) /\ fst (c_state ms) = fst (c_state ev)) /\
  (forall bs, BPState lp ms ev = Ok bs ->
     bs_log_potentials bs = lp /\ bs_ftov_msgs bs = ms /\ bs_evidence bs = ev) /\
  (forall e, BPState lp ms ev = Raise e -> e = ValueError).
Proof.
  unfold BPState, same_state. destruct (Nat.eqb_spec (fst (c_state lp)) (fst (c_state ms))) as [E|E];
  destruct (Nat.eqb_spec (fst (c_state ms)) (fst (c_state ev))) as [E'|E']; cbn [negb orb].
  - split; [split; [auto|eauto]|]. split; [|discriminate]. intros bs X. injection X as <-. auto.
  - split; [split; [intros [? ?]; discriminate|tauto]|]. split; [discriminate|congruence].
  - split; [split; [intros [? ?]; discriminate|tauto]|]. split; [discriminate|congruence].
  - split; [split; [intros [? ?]; discriminate|tauto]|]. split; [discriminate|congruence].
Qed.
