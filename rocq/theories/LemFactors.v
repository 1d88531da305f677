(** * Proofs about the factors property of FactorGraph (C46). *)
From Verif Require Import FGraph FGraphFactors Lists SpecVGroup SpecFactor SpecFGraph SpecAdd SpecWiring SpecState SpecFactors.
From Verif Require Import LemFGraph LemFactor LemAdd LemWiring LemGraph LemState LemWorld.
From Coq Require Import Lia.
Local Open Scope nat_scope.

Lemma distinct_concat_in (vsss : list (list (list variable))) vss :
  In vss vsss -> distinct_sets (concat vsss) -> distinct_sets vss.
Proof.
  induction vsss as [|x vsss IH]; intros Hin H; [destruct Hin|]. cbn [concat] in H.
  apply distinct_sets_app in H. destruct H as [H1 [H2 _]]. destruct Hin as [<-|Hin]; auto.
Qed.
Lemma group_distinct {A} gs (g : fgraph A) t h : reachable gs g -> In h (pt_get t (gr_groups g)) -> distinct_sets (fg_vars h).
Proof.
  intros Hr Hh. destruct (C16_lemma gs g Hr t) as [Hd _]. unfold factor_sets in Hd.
  eapply distinct_concat_in; [|exact Hd]. now apply in_map.
Qed.

(** ** Success *)
Lemma fg_make_factor_res {A} (g : fgroup A) i vs :
  (forall f, fg_make_factor g i vs = Ok f ->
     factor_variables f = vs /\
     match fg_type g with
     | TEnum => legal_configs vs (fg_configs g) (nth 0 (shape (fg_configs g)) 0)
     | _ => 2 <= length vs /\ binary_vars vs
     end /\
     match fg_type g with
     | TEnum => let nc := nth 0 (shape (fg_configs g)) 0 in
                f = FEnum {| ef_variables := vs; ef_configs := fg_configs g;
                             ef_log_potentials := slice (fg_log_potentials g) (i * nc) (i * nc + nc) |}
     | t => f = FLogical {| lf_type := t; lf_variables := vs |}
     end) /\
  (match fg_type g with
     | TEnum => legal_configs vs (fg_configs g) (nth 0 (shape (fg_configs g)) 0)
     | _ => 2 <= length vs /\ binary_vars vs
     end -> exists f, fg_make_factor g i vs = Ok f) /\
  (forall e, fg_make_factor g i vs = Raise e -> e = ValueError).
Proof.
  unfold fg_make_factor. destruct (fg_type g).
  - set (nc := nth 0 (shape (fg_configs g)) 0). set (row := slice _ _ _).
    destruct (EnumFactor_spec vs true (fg_configs g) true (mkArr [nc] row)) as [HE HR].
    destruct (EnumFactor vs true (fg_configs g) true (mkArr [nc] row)) as [f0|e0] eqn:E; cbn [bind].
    + destruct (proj1 (HE f0) eq_refl) as [_ [_ [[n [L Hs]] ->]]]. cbn [shape] in Hs. injection Hs as <-.
      split; [|split; [intros _; eexists; reflexivity|discriminate]].
      intros f H. injection H as <-. split; [reflexivity|]. split; [exact L|]. reflexivity.
    + split; [discriminate|]. split.
      * intros L. exfalso.
        assert (X : Raise (A := enum_factor A) e0 = Ok {| ef_variables := vs; ef_configs := fg_configs g; ef_log_potentials := row |}).
        { apply HE. split; [reflexivity|]. split; [reflexivity|]. split; [|reflexivity]. exists nc. split; [exact L|reflexivity]. }
        discriminate.
      * intros e H. injection H as <-. now apply HR.
  - destruct (LogicalFactor_spec TOr vs) as [HE HR]. destruct (LogicalFactor TOr vs) as [f0|e0]; cbn [bind].
    + destruct (proj1 (HE f0) eq_refl) as [H1 [H2 ->]].
      split; [|split; [intros _; eexists; reflexivity|discriminate]]. intros f H. injection H as <-. auto.
    + split; [discriminate|]. split.
      * intros [L1 L2]. exfalso. assert (X := proj2 (HE _) (conj L1 (conj L2 eq_refl))). discriminate.
      * intros e H. injection H as <-. now apply HR.
  - destruct (LogicalFactor_spec TAnd vs) as [HE HR]. destruct (LogicalFactor TAnd vs) as [f0|e0]; cbn [bind].
    + destruct (proj1 (HE f0) eq_refl) as [H1 [H2 ->]].
      split; [|split; [intros _; eexists; reflexivity|discriminate]]. intros f H. injection H as <-. auto.
    + split; [discriminate|]. split.
      * intros [L1 L2]. exfalso. assert (X := proj2 (HE _) (conj L1 (conj L2 eq_refl))). discriminate.
      * intros e H. injection H as <-. now apply HR.
Qed.

(** The factors of a group whose sets are distinct. *)
Definition the_factor {A} (g : fgroup A) (i : nat) (vs : list variable) : factor A :=
  match fg_type g with
  | TEnum => let nc := nth 0 (shape (fg_configs g)) 0 in
             FEnum {| ef_variables := vs; ef_configs := fg_configs g;
                      ef_log_potentials := slice (fg_log_potentials g) (i * nc) (i * nc + nc) |}
  | t => FLogical {| lf_type := t; lf_variables := vs |}
  end.
Definition the_factors {A} (g : fgroup A) : list (factor A) :=
  map (fun iv => the_factor g (fst iv) (snd iv)) (combine (seq 0 (length (fg_vars g))) (fg_vars g)).

Lemma the_factors_vars {A} (g : fgroup A) : map factor_variables (the_factors g) = fg_vars g.
Proof.
  unfold the_factors. rewrite map_map.
  rewrite (map_ext _ (fun iv : nat * list variable => snd iv)).
  - generalize (fg_vars g). intros l. generalize 0. induction l as [|x l IH]; intros a; [reflexivity|].
    cbn [length seq combine map]. f_equal. apply IH.
  - intros iv. unfold the_factor. now destruct (fg_type g).
Qed.

Lemma fg_factors_ok {A} (g : fgroup A) : distinct_sets (fg_vars g) -> constructible g -> fg_factors g = Ok (the_factors g).
Proof.
  intros Hd Hc. unfold fg_factors, fg_variables_to_factors.
  rewrite (mapM_all _ (fun iv => (snd iv, the_factor g (fst iv) (snd iv)))).
  - cbn [bind]. f_equal. unfold dict_of, the_factors.
    rewrite dupdate_new; [cbn [app]; now rewrite map_map|apply set_eqb_sym|reflexivity|].
    cbn [app]. clear Hc. generalize 0. generalize (the_factor g). revert Hd. generalize (fg_vars g). clear g.
    intros l Hd F. induction Hd as [|vs l Hvs Hd IH]; intros a; [constructor|]. cbn [length seq combine map fst snd].
    constructor; [|apply IH]. rewrite Forall_forall in *. intros [ws f] Hin.
    apply in_map_iff in Hin. destruct Hin as [[i us] [E Hin]]. cbn [fst snd] in E. injection E as <- _.
    apply set_eqb_false. apply Hvs. eapply in_combine_r. exact Hin.
  - intros [i vs] Hin. cbn [fst snd]. apply in_combine_r in Hin.
    destruct (fg_make_factor_res g i vs) as [H1 [H2 _]]. destruct (H2 (Hc vs Hin)) as [f Hf]. rewrite Hf. cbn [bind].
    destruct (H1 f Hf) as [_ [_ E]]. f_equal. f_equal. unfold the_factor. destruct (fg_type g); exact E.
Qed.
Lemma fg_factors_constructible {A} (g : fgroup A) fs : fg_factors g = Ok fs -> constructible g.
Proof.
  intros H vs Hvs. unfold fg_factors, fg_variables_to_factors in H.
  destruct (mapM _ _) as [l|e] eqn:E; [|discriminate]. apply In_nth_error in Hvs. destruct Hvs as [i Hi].
  apply mapM_Ok in E.
  assert (Hin : In (i, vs) (combine (seq 0 (length (fg_vars g))) (fg_vars g))).
  { assert (Hlt : i < length (fg_vars g)) by (apply nth_error_Some; congruence).
    assert (X : nth i (combine (seq 0 (length (fg_vars g))) (fg_vars g)) (0, []) = (i, vs)).
    { rewrite combine_nth by apply seq_length. rewrite seq_nth by exact Hlt.
      now rewrite (nth_error_nth (fg_vars g) i [] Hi). }
    rewrite <- X. apply nth_In. rewrite combine_length, seq_length. lia. }
  clear H Hi. induction E as [|x y xs ys Hxy E IH]; [destruct Hin|]. destruct Hin as [->|Hin]; [|now apply IH].
  cbn [fst snd] in Hxy. destruct (fg_make_factor g i vs) as [f|e] eqn:Ef; [|discriminate].
  destruct (fg_make_factor_res g i vs) as [H1 _]. now destruct (H1 f Ef) as [_ [H2 _]].
Qed.
Lemma fg_factors_raise {A} (g : fgroup A) e : fg_factors g = Raise e -> e = ValueError.
Proof.
  unfold fg_factors, fg_variables_to_factors. destruct (mapM _ _) as [l|e0] eqn:E; [discriminate|].
  cbn [bind]. intros H. injection H as <-. apply mapM_raise in E. destruct E as [[i vs] [_ E]]. cbn [fst snd] in E.
  destruct (fg_make_factor g i vs) as [f|e1] eqn:Ef; [discriminate|]. injection E as <-.
  destruct (fg_make_factor_res g i vs) as [_ [_ H]]. now apply H.
Qed.

Lemma gr_factors_of_ok {A} (gs : list (fgroup A)) :
  (forall h, In h gs -> distinct_sets (fg_vars h) /\ constructible h) ->
  gr_factors_of gs = Ok (flat_map the_factors gs).
Proof.
  intros H. unfold gr_factors_of. rewrite (mapM_all _ the_factors).
  - cbn [bind]. now rewrite flat_map_concat_map.
  - intros h Hh. destruct (H h Hh). now apply fg_factors_ok.
Qed.
Lemma gr_factors_of_inv {A} (gs : list (fgroup A)) fs : gr_factors_of gs = Ok fs -> forall h, In h gs -> constructible h.
Proof.
  unfold gr_factors_of. destruct (mapM fg_factors gs) as [l|e] eqn:E; [|discriminate]. intros _ h Hh.
  apply mapM_Ok in E. induction E as [|x y xs ys Hxy E IH]; [destruct Hh|]. destruct Hh as [->|Hh]; [|now apply IH].
  eapply fg_factors_constructible; exact Hxy.
Qed.
Lemma gr_factors_of_raise {A} (gs : list (fgroup A)) e : gr_factors_of gs = Raise e -> e = ValueError.
Proof.
  unfold gr_factors_of. destruct (mapM fg_factors gs) as [l|e0] eqn:E; [discriminate|]. cbn [bind]. intros H. injection H as <-.
  apply mapM_raise in E. destruct E as [x [_ E]]. eapply fg_factors_raise; exact E.
Qed.

Lemma C46_exact_lemma {A} gs (g : fgraph A) : reachable gs g ->
  ((exists p, gr_factors g = Ok p) <-> (forall h, In h (all_groups (gr_groups g)) -> constructible h)) /\
  (forall e, gr_factors g = Raise e -> e = ValueError).
Proof.
  intros Hr. split; [split|].
  - intros [p Hp] h Hh. apply In_all_groups in Hh. destruct Hh as [t Ht]. unfold gr_factors in Hp.
    destruct (gr_factors_of (pt_enum _)) as [e|] eqn:E1; [|discriminate]. cbn [bind] in Hp.
    destruct (gr_factors_of (pt_or _)) as [o|] eqn:E2; [|discriminate]. cbn [bind] in Hp.
    destruct (gr_factors_of (pt_and _)) as [d|] eqn:E3; [|discriminate].
    destruct t; cbn [pt_get] in Ht;
      [exact (gr_factors_of_inv _ _ E1 h Ht)|exact (gr_factors_of_inv _ _ E2 h Ht)|exact (gr_factors_of_inv _ _ E3 h Ht)].
  - intros H. assert (K : forall t h, In h (pt_get t (gr_groups g)) -> distinct_sets (fg_vars h) /\ constructible h).
    { intros t h Hh. split; [eapply group_distinct; eassumption|]. apply H. apply In_all_groups. now exists t. }
    unfold gr_factors.
    rewrite (gr_factors_of_ok (pt_enum (gr_groups g)) (K TEnum)), (gr_factors_of_ok (pt_or (gr_groups g)) (K TOr)),
      (gr_factors_of_ok (pt_and (gr_groups g)) (K TAnd)).
    cbn [bind]. eexists. reflexivity.
  - intros e. unfold gr_factors.
    destruct (gr_factors_of (pt_enum _)) as [e1|] eqn:E1; cbn [bind]; [|intros H; injection H as <-; eapply gr_factors_of_raise; exact E1].
    destruct (gr_factors_of (pt_or _)) as [o|] eqn:E2; cbn [bind]; [|intros H; injection H as <-; eapply gr_factors_of_raise; exact E2].
    destruct (gr_factors_of (pt_and _)) as [d|] eqn:E3; cbn [bind]; [|intros H; injection H as <-; eapply gr_factors_of_raise; exact E3].
    discriminate.
Qed.

Lemma Forall2_map_same {X Y Z'} (R : Y -> Z' -> Prop) (f : X -> Y) (h : X -> Z') l :
  (forall x, In x l -> R (f x) (h x)) -> Forall2 R (map f l) (map h l).
Proof. induction l as [|x l IH]; intros H; [constructor|]. cbn [map]. constructor; [apply H; now left|apply IH; intros y Hy; apply H; now right]. Qed.
Lemma Forall2_flat_map_same {X Y Z'} (R : Y -> Z' -> Prop) (f : X -> list Y) (h : X -> list Z') l :
  (forall x, In x l -> Forall2 R (f x) (h x)) -> Forall2 R (flat_map f l) (flat_map h l).
Proof. induction l as [|x l IH]; intros H; [constructor|]. cbn [flat_map]. apply Forall2_app; [apply H; now left|apply IH; intros y Hy; apply H; now right]. Qed.

Lemma the_factors_enum {A} (h : fgroup A) : fg_type h = TEnum -> Forall2 represents (group_factors h) (the_factors h).
Proof.
  intros Ht. unfold group_factors, the_factors. apply Forall2_map_same. intros [i vs] _. cbn [fst snd].
  unfold the_factor. rewrite Ht. eexists. split; [reflexivity|]. cbn [ef_variables ef_configs ef_log_potentials sf_vars sf_configs sf_pots]. auto.
Qed.
Lemma the_factors_logical {A} t (h : fgroup A) : fg_type h = t -> t <> TEnum ->
  Forall2 (fun vs f => f = FLogical {| lf_type := t; lf_variables := vs |}) (fg_vars h) (the_factors h).
Proof.
  intros Ht Hne. rewrite <- (the_factors_vars h) at 1. unfold the_factors. rewrite map_map. apply Forall2_map_same.
  intros [i vs] _. cbn [fst snd]. unfold the_factor. rewrite Ht. destruct t; [contradiction| |]; reflexivity.
Qed.

Lemma C46_lemma {A} gs (g : fgraph A) p : reachable gs g -> gr_factors g = Ok p ->
  Forall2 represents (enum_factors (gr_groups g)) (pt_enum p) /\
  (forall t, t <> TEnum -> Forall2 (fun vs f => f = FLogical {| lf_type := t; lf_variables := vs |})
                                   (logical_factors t (gr_groups g)) (pt_get t p)) /\
  (forall t, map factor_variables (pt_get t p) = factor_sets t g /\ distinct_sets (map factor_variables (pt_get t p))).
Proof.
  intros Hr Hp. destruct (C46_exact_lemma gs g Hr) as [[H _] _]. specialize (H (ex_intro _ p Hp)).
  assert (K : forall t h, In h (pt_get t (gr_groups g)) -> distinct_sets (fg_vars h) /\ constructible h).
  { intros t h Hh. split; [eapply group_distinct; eassumption|]. apply H. apply In_all_groups. now exists t. }
  assert (E : forall t, pt_get t p = flat_map the_factors (pt_get t (gr_groups g))).
  { unfold gr_factors in Hp.
    rewrite (gr_factors_of_ok (pt_enum (gr_groups g)) (K TEnum)), (gr_factors_of_ok (pt_or (gr_groups g)) (K TOr)),
      (gr_factors_of_ok (pt_and (gr_groups g)) (K TAnd)) in Hp.
    cbn [bind] in Hp. injection Hp as <-. intros []; reflexivity. }
  assert (T : forall t h, In h (pt_get t (gr_groups g)) -> fg_type h = t) by (intros t; apply (C16_lemma gs g Hr t)).
  split; [|split].
  - change (pt_enum p) with (pt_get TEnum p). rewrite E. unfold enum_factors. apply Forall2_flat_map_same.
    intros h Hh. apply the_factors_enum. now apply (T TEnum).
  - intros t Ht. rewrite E. unfold logical_factors. rewrite <- flat_map_concat_map. apply Forall2_flat_map_same.
    intros h Hh. apply the_factors_logical; [now apply T|exact Ht].
  - intros t. assert (V : map factor_variables (pt_get t p) = factor_sets t g).
    { rewrite E. unfold factor_sets. rewrite !flat_map_concat_map, concat_map, map_map. f_equal.
      apply map_ext. intros h. apply the_factors_vars. }
    split; [exact V|]. rewrite V. apply (C16_lemma gs g Hr t).
Qed.

(** ** Freshness *)
Lemma fw_step {A} (w : fworld A) o : fw_world (fst (fstep w o)) = match o with FBase o => fst (step (fw_world w) o) | _ => fw_world w end.
Proof.
  destruct o as [o|i|i]; cbn [fstep].
  - destruct (step (fw_world w) o). reflexivity.
  - destruct (nth_error _ i) as [g|]; [|reflexivity]. unfold call_factors. destruct (dget _ _ _); [reflexivity|].
    destruct (gr_factors _); reflexivity.
  - destruct (nth_error _ i); reflexivity.
Qed.
Lemma fworld_snoc {A} (ops : list (fop A)) o : fworld_after (ops ++ [o]) = fst (fstep (fworld_after ops) o).
Proof. unfold fworld_after, fworld_run. now rewrite fold_left_app. Qed.
Lemma base_snoc {A} (ops : list (fop A)) o : base_ops (ops ++ [o]) = base_ops ops ++ match o with FBase o => [o] | _ => [] end.
Proof. unfold base_ops. rewrite flat_map_app. cbn [flat_map]. now rewrite app_nil_r. Qed.
Lemma fw_world_after {A} (ops : list (fop A)) : fw_world (fworld_after ops) = world_after (base_ops ops).
Proof.
  induction ops as [|o ops IH] using rev_ind; [reflexivity|].
  rewrite fworld_snoc, base_snoc, fw_step. destruct o as [o|i|i]; rewrite ?app_nil_r; [|exact IH|exact IH].
  rewrite world_after_snoc. now rewrite IH.
Qed.

Lemma wfg_after {A} (ops : list (op A)) : forall g, In g (graphs_after ops) -> wfg g.
Proof.
  unfold graphs_after. induction ops as [|o ops IH] using rev_ind; intros g Hg; [destruct Hg|].
  rewrite fold_left_app in Hg. cbn [fold_left] in Hg. destruct o as [arg|i a|i j|i j|i j|i|i]; cbn [graphs_step] in Hg; auto.
  - apply in_app_or in Hg. destruct Hg as [Hg|[<-|[]]]; [auto|apply wfg_new].
  - set (l := fold_left graphs_step ops []) in *. destruct (nth_error l i) as [g0|] eqn:E.
    + assert (X : upd i (fun g => fst (add_factors a g)) l = upd i (fun _ => fst (add_factors a g0)) l).
      { clear - E. revert i E. induction l as [|x l IH]; intros i E; [destruct i; discriminate|].
        destruct i as [|i]; cbn [upd nth_error] in *; [now injection E as ->|]. f_equal. now apply IH. }
      rewrite X in Hg. apply In_upd in Hg. destruct Hg as [->|Hg]; [|auto]. apply wfg_add. apply IH. eapply nth_error_In; exact E.
    + rewrite upd_none in Hg by exact E. auto.
Qed.
Lemma In_graphs_after {A} (ops : list (op A)) o : In o (wo_graphs (world_after ops)) -> In (go_graph o) (graphs_after ops).
Proof. intros H. rewrite <- graphs_world_after. unfold graphs. now apply (in_map go_graph). Qed.

Definition fcache_ok {A} (w : fworld A) : Prop :=
  forall k v, In (k, v) (fw_factors_cache w) ->
    exists g0, past (fw_world w) g0 /\ graph_key g0 = k /\ gr_factors g0 = Ok v.

Lemma fcache_hit {A} (w : fworld A) o v : ids_ok (fw_world w) -> (forall o, In o (wo_graphs (fw_world w)) -> wfg (go_graph o)) ->
  fcache_ok w -> In o (wo_graphs (fw_world w)) -> In (graph_key (go_graph o), v) (fw_factors_cache w) -> gr_factors (go_graph o) = Ok v.
Proof.
  intros [I1 I2] Hw C Ho Hv. destruct (C _ _ Hv) as [g0 [[W0 [o' [Ho' [X1 [X2 X3]]]]] [Ek E]]].
  assert (S : same_content g0 (go_graph o)).
  { apply key_content; auto.
    - intros h h' Hh Hh'. apply (I1 o' o); auto.
    - intros u u' Hu Hu'. apply (I2 o' o); congruence. }
  destruct S as [_ [_ S]]. unfold gr_factors in *. now rewrite <- S.
Qed.

Lemma fcache_step {A} (w : fworld A) o : (forall o, In o (wo_graphs (fw_world w)) -> wfg (go_graph o)) ->
  fcache_ok w -> fcache_ok (fst (fstep w o)).
Proof.
  intros Hw C. destruct o as [o|i|i]; cbn [fstep].
  - pose proof (grows_step (fw_world w) o) as G. destruct (step (fw_world w) o) as [w' r]. cbn [fst] in *.
    intros k v Hk. cbn [fw_factors_cache fw_world] in *. destruct (C k v Hk) as [g0 [P H]]. exists g0. split; [|exact H].
    eapply past_grows; eassumption.
  - destruct (nth_error _ i) as [g|] eqn:E; [|exact C]. unfold call_factors. destruct (dget _ _ _); [exact C|].
    destruct (gr_factors (go_graph g)) as [v|e] eqn:Ev; [|exact C]. intros k v' Hk. cbn [fst fw_factors_cache fw_world] in *.
    destruct Hk as [Hk|Hk]; [|now apply C]. injection Hk as <- <-. exists (go_graph g). split; [|auto].
    apply nth_error_In in E. split; [now apply Hw|]. exists g. split; [exact E|apply within_refl].
  - destruct (nth_error _ i); exact C.
Qed.
Lemma fcache_after {A} (ops : list (fop A)) : fcache_ok (fworld_after ops).
Proof.
  induction ops as [|o ops IH] using rev_ind; [intros k v []|].
  rewrite fworld_snoc. apply fcache_step; [|exact IH].
  rewrite fw_world_after. intros p Hp. apply (wfg_after (base_ops ops)). now apply In_graphs_after.
Qed.

Lemma C46_fresh_lemma {A} (ops : list (fop A)) i g :
  distinct_ids (graphs_after (base_ops ops)) -> nth_error (graphs_after (base_ops ops)) i = Some g ->
  snd (fstep (fworld_after ops) (FFactors i)) = (p <- gr_factors g ;; Ok (RFactors p)) /\
  snd (fstep (fworld_after ops) (FGroups i)) = Ok (RGroups (gr_groups g)).
Proof.
  intros D Hi. destruct (after_nth (base_ops ops) i g Hi) as [o [Ho <-]]. cbn [fstep].
  rewrite fw_world_after, Ho. split; [|reflexivity]. unfold call_factors.
  destruct (dget key_eqb (graph_key (go_graph o)) (fw_factors_cache (fworld_after ops))) as [v|] eqn:E.
  - apply kget_In in E. apply (fcache_hit (fworld_after ops) o v) in E.
    + cbn [snd]. now rewrite E.
    + rewrite fw_world_after. apply distinct_ids_ok. rewrite <- graphs_world_after in D. exact D.
    + rewrite fw_world_after. intros p Hp. apply (wfg_after (base_ops ops)). now apply In_graphs_after.
    + apply fcache_after.
    + rewrite fw_world_after. eapply nth_error_In; exact Ho.
  - destruct (gr_factors (go_graph o)); reflexivity.
Qed.

(** Reading factors has no effect on anything else. *)
Lemma C46_pure_lemma {A} (ops : list (fop A)) o :
  snd (fstep (fworld_after ops) (FBase o)) = (x <- snd (step (world_after (base_ops ops)) o) ;; Ok (ROut x)).
Proof. cbn [fstep]. rewrite fw_world_after. destruct (step _ o) as [w r]. reflexivity. Qed.
