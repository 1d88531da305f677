(** * Nothing depends on object ids. *)
From Verif Require Import Py NumPy Lists FGraph BPState BP SpecVGroup SpecFGraph SpecWiring SpecIds.
From Verif Require Import LemVGroup LemFGraph LemDup LemEvidence LemGraph LemState.
From Coq Require Import Lia.
Local Open Scope nat_scope.

Lemma F2_length {X Y} (P : X -> Y -> Prop) l l' : Forall2 P l l' -> length l = length l'.
Proof. induction 1; cbn; congruence. Qed.
Lemma F2_map_eq {X Y Z} (P : X -> Y -> Prop) (f : X -> Z) (f' : Y -> Z) l l' :
  (forall x y, P x y -> f x = f' y) -> Forall2 P l l' -> map f l = map f' l'.
Proof. intros H. induction 1 as [|x y l l' Hxy HF IH]; [reflexivity|]. cbn [map]. now rewrite (H x y Hxy), IH. Qed.
Lemma F2_concat {X Y} (P : X -> Y -> Prop) l l' : Forall2 (Forall2 P) l l' -> Forall2 P (concat l) (concat l').
Proof. induction 1 as [|x y l l' Hxy HF IH]; [constructor|]. cbn [concat]. now apply Forall2_app. Qed.
Lemma F2_mapM_eq {X Y Z} (P : X -> Y -> Prop) (f : X -> res Z) (f' : Y -> res Z) l l' :
  (forall x y, P x y -> f x = f' y) -> Forall2 P l l' -> mapM f l = mapM f' l'.
Proof. intros H. induction 1 as [|x y l l' Hxy HF IH]; [reflexivity|]. cbn [mapM]. now rewrite (H x y Hxy), IH. Qed.
Lemma F2_foldM_eq {X Y S} (P : X -> Y -> Prop) (f : S -> X -> res S) (f' : S -> Y -> res S) l l' :
  (forall s x y, P x y -> f s x = f' s y) -> Forall2 P l l' -> forall s, foldM f l s = foldM f' l' s.
Proof.
  intros H. induction 1 as [|x y l l' Hxy HF IH]; intros s; [reflexivity|]. cbn [foldM]. rewrite (H s x y Hxy).
  destruct (f' s y); cbn [bind]; [apply IH|reflexivity].
Qed.
Lemma F2_nth {X Y} (P : X -> Y -> Prop) l l' : Forall2 P l l' -> forall i x x', nth_error l i = Some x -> nth_error l' i = Some x' -> P x x'.
Proof.
  induction 1 as [|x y l l' Hxy HF IH]; intros i u v; [destruct i; discriminate|]. destruct i as [|i]; cbn [nth_error]; [congruence|apply IH].
Qed.
Lemma F2_firstn {X Y} (P : X -> Y -> Prop) l l' : Forall2 P l l' -> forall i, Forall2 P (firstn i l) (firstn i l').
Proof. induction 1 as [|x y l l' Hxy HF IH]; intros [|i]; cbn [firstn]; constructor; auto. Qed.
Lemma F2_existsb_eq {X Y} (P : X -> Y -> Prop) f f' l l' : (forall x y, P x y -> f x = f' y) -> Forall2 P l l' -> existsb f l = existsb f' l'.
Proof. intros H. induction 1 as [|x y l l' Hxy HF IH]; [reflexivity|]. cbn [existsb]. now rewrite (H x y Hxy), IH. Qed.
Lemma F2_forallb_eq {X Y} (P : X -> Y -> Prop) f f' l l' : (forall x y, P x y -> f x = f' y) -> Forall2 P l l' -> forallb f l = forallb f' l'.
Proof. intros H. induction 1 as [|x y l l' Hxy HF IH]; [reflexivity|]. cbn [forallb]. now rewrite (H x y Hxy), IH. Qed.

(** ** Groups *)
Lemma snd_combine_same {X Y Z} (l : list X) (l' : list Y) (m : list Z) : length l = length l' -> map snd (combine l m) = map snd (combine l' m).
Proof. revert l' m. induction l as [|x l IH]; intros [|y l'] m E; cbn in E; try discriminate; [reflexivity|]. destruct m as [|z m]; [reflexivity|]. cbn [combine map snd]. f_equal. apply IH. lia. Qed.
Lemma same_group_snd v v' : same_group v v' -> map snd (vg_variables v) = map snd (vg_variables v').
Proof.
  destruct v as [v|v], v' as [v'|v']; cbn [same_group vg_variables]; try contradiction; intros [E1 E2].
  - unfold va_variables. rewrite E2. apply snd_combine_same. unfold va_variable_hashes. now rewrite !map_length, E1.
  - unfold vd_variables. rewrite E2. apply snd_combine_same. unfold vd_variable_hashes. now rewrite !map_length, E1.
Qed.
Lemma same_group_num v v' : same_group v v' -> vg_num_states v = vg_num_states v'.
Proof. destruct v as [v|v], v' as [v'|v']; cbn; tauto. Qed.
Lemma same_group_flatten {A} v v' (d : gdata A) : same_group v v' -> vg_flatten v d = vg_flatten v' d.
Proof.
  destruct v as [v|v], v' as [v'|v'], d as [d|d]; cbn [same_group vg_flatten]; try contradiction; intros [E1 E2]; try reflexivity.
  - unfold va_flatten. now rewrite E1, E2.
  - unfold vd_flatten. rewrite E1. rewrite (mapM_ext (vd_check v) (vd_check v')); [reflexivity|]. intros x _. unfold vd_check. now rewrite E1, E2.
Qed.
Lemma fold_left_same {X Y} (f f' : X -> Y -> X) l s : (forall s y, f s y = f' s y) -> fold_left f l s = fold_left f' l s.
Proof. intros H. revert s. induction l as [|y l IH]; intros s; [reflexivity|]. cbn [fold_left]. now rewrite H, IH. Qed.
Lemma same_group_unflatten {A} (ninf : A) v v' f : same_group v v' -> vg_unflatten ninf v f = vg_unflatten ninf v' f.
Proof.
  destruct v as [v|v], v' as [v'|v']; cbn [same_group vg_unflatten]; try contradiction; intros [E1 E2].
  - unfold va_unflatten. now rewrite E1, E2.
  - unfold vd_unflatten. rewrite E1, E2.
    rewrite (fold_left_same (vd_unflatten_step v false (data f)) (vd_unflatten_step v' false (data f))) by (intros; unfold vd_unflatten_step; now rewrite ?E1, ?E2).
    rewrite (fold_left_same (vd_unflatten_step v true (data f)) (vd_unflatten_step v' true (data f))) by (intros; unfold vd_unflatten_step; now rewrite ?E1, ?E2).
    reflexivity.
Qed.

Section Ids.
  Context {A : Type}.
  Variables vgs vgs' : list vgroup.
  Hypothesis Hok : groups_ok vgs.
  Hypothesis Hok' : groups_ok vgs'.
  Hypothesis Hsame : Forall2 same_group vgs vgs'.
  Notation sv := (same_var vgs vgs').

  Lemma all_snd_gen gs gs' : Forall2 same_group gs gs' -> map snd (all_vars gs) = map snd (all_vars gs').
  Proof. unfold all_vars. induction 1 as [|v v' gs gs' Hv HF IH]; [reflexivity|]. cbn [map concat]. rewrite !map_app, IH. f_equal. now apply same_group_snd. Qed.
  Lemma all_snd : map snd (all_vars vgs) = map snd (all_vars vgs').
  Proof. now apply all_snd_gen. Qed.
  Lemma sv_snd x x' : sv x x' -> snd x = snd x'.
  Proof.
    intros [k [H H']]. assert (E : nth_error (map snd (all_vars vgs)) k = nth_error (map snd (all_vars vgs')) k) by now rewrite all_snd.
    rewrite !nth_error_map, H, H' in E. cbn in E. congruence.
  Qed.
  Lemma sv_eqb x x' y y' : sv x x' -> sv y y' -> var_eqb x y = var_eqb x' y'.
  Proof.
    intros [k [H H']] [j [G G']].
    assert (E : forall gs, groups_ok gs -> forall a b, nth_error (all_vars gs) k = Some a -> nth_error (all_vars gs) j = Some b -> var_eqb a b = (k =? j)).
    { intros gs Hg a b Ha Hb. destruct (Nat.eqb_spec k j) as [E|E].
      - subst j. rewrite Ha in Hb. injection Hb as <-. apply var_eqb_refl.
      - apply var_eqb_neq. intros <-. apply E. apply (proj1 (NoDup_nth_error (all_vars gs)) (all_vars_NoDup gs Hg)); [apply nth_error_Some; congruence|congruence]. }
    rewrite (E vgs Hok x y H G), (E vgs' Hok' x' y' H' G'). reflexivity.
  Qed.
  Lemma set_same a a' b b' : Forall2 sv a a' -> Forall2 sv b b' -> set_eqb a b = set_eqb a' b'.
  Proof.
    intros Ha Hb. unfold set_eqb, var_in. f_equal.
    - apply (F2_forallb_eq sv); [|exact Ha]. intros x x' Hx. apply (F2_existsb_eq sv); [|exact Hb]. intros y y' Hy. now apply sv_eqb.
    - apply (F2_forallb_eq sv); [|exact Hb]. intros x x' Hx. apply (F2_existsb_eq sv); [|exact Ha]. intros y y' Hy. now apply sv_eqb.
  Qed.

  (** ** Adding factors *)
  Notation sfg := (same_fgroup (A := A) vgs vgs').
  Definition same_graph (g g' : fgraph A) : Prop :=
    gr_is_list g = gr_is_list g' /\
    (forall t, Forall2 sfg (pt_get t (gr_groups g)) (pt_get t (gr_groups g'))) /\
    (forall t, Forall2 (Forall2 sv) (pt_get t (gr_varsets g)) (pt_get t (gr_varsets g'))).
  Lemma pt_get_set {X} t u (x : X) p : pt_get u (pt_set t x p) = if match t, u with TEnum, TEnum => true | TOr, TOr => true | TAnd, TAnd => true | _, _ => false end then x else pt_get u p.
  Proof. now destruct t, u. Qed.
  Lemma pt_set_F2 {X Y} (P : X -> Y -> Prop) t x y (p : per_type X) (p' : per_type Y) :
    (forall u, P (pt_get u p) (pt_get u p')) -> P x y -> forall u, P (pt_get u (pt_set t x p)) (pt_get u (pt_set t y p')).
  Proof. intros H Hxy u. specialize (H u). destruct t, u; cbn in *; assumption. Qed.

  Lemma record_same t vss vss' : Forall2 (Forall2 sv) vss vss' -> forall g g', same_graph g g' ->
    snd (record_varsets t vss g) = snd (record_varsets t vss' g') /\ same_graph (fst (record_varsets t vss g)) (fst (record_varsets t vss' g')).
  Proof.
    induction 1 as [|vs vs' vss vss' Hv HF IH]; intros g g' Hg; [split; [reflexivity|exact Hg]|]. cbn [record_varsets].
    rewrite <- (F2_existsb_eq (Forall2 sv) (set_eqb vs) (set_eqb vs') (pt_get t (gr_varsets g)) (pt_get t (gr_varsets g')));
      [|intros; now apply set_same|apply Hg].
    destruct (existsb (set_eqb vs) (pt_get t (gr_varsets g))); [split; [reflexivity|exact Hg]|]. apply IH.
    destruct Hg as [G1 [G2 G3]]. split; [exact G1|]. split; [exact G2|]. cbn [gr_varsets with_varsets].
    apply (pt_set_F2 (Forall2 (Forall2 sv)) t); [exact G3|]. apply Forall2_app; [apply G3|]. constructor; [exact Hv|constructor].
  Qed.
  Lemma add_group_same h h' g g' : sfg h h' -> same_graph g g' ->
    snd (add_group h g) = snd (add_group h' g') /\ same_graph (fst (add_group h g)) (fst (add_group h' g')).
  Proof.
    intros Hh Hg. pose proof Hh as [_ [E [_ [_ Hv]]]]. unfold add_group. rewrite <- E.
    destruct (record_same (fg_type h) _ _ Hv g g' Hg) as [R1 R2].
    destruct (record_varsets (fg_type h) (fg_vars h) g) as [g1 r1], (record_varsets (fg_type h) (fg_vars h') g') as [g1' r1'].
    cbn [fst snd] in R1, R2. subst r1'. destruct r1 as [u|e]; [|split; [reflexivity|exact R2]]. split; [reflexivity|].
    destruct R2 as [G1 [G2 G3]]. split; [exact G1|]. split; [|exact G3]. cbn [fst gr_groups with_groups].
    apply (pt_set_F2 (Forall2 sfg)); [exact G2|]. apply Forall2_app; [apply G2|]. constructor; [exact Hh|constructor].
  Qed.
  Lemma single_same id id' f f' : same_factor vgs vgs' f f' -> sfg (SingleFactorGroup id f) (SingleFactorGroup id' f').
  Proof.
    destruct f as [e|l], f' as [e'|l']; cbn [same_factor]; try contradiction.
    - intros [Hv [E1 E2]]. repeat split; try assumption. repeat constructor. exact Hv.
    - intros [E Hv]. repeat split; try assumption. repeat constructor. exact Hv.
  Qed.
  Lemma add_same a a' : same_arg vgs vgs' a a' -> forall g g', same_graph g g' ->
    snd (add_factors a g) = snd (add_factors a' g') /\ same_graph (fst (add_factors a g)) (fst (add_factors a' g')).
  Proof.
    induction 1 as [id id' f f' Hf|h h' Hh| |a a' l l' Ha IHa Hl IHl|]; intros g g' Hg.
    - cbn [add_factors]. apply add_group_same; [now apply single_same|exact Hg].
    - cbn [add_factors]. now apply add_group_same.
    - split; [reflexivity|exact Hg].
    - destruct (IHa g g' Hg) as [R1 R2].
      assert (E : forall b k g, add_factors (AList (b :: k)) g = match add_factors (A := A) b g with (g1, Ok _) => add_factors (AList k) g1 | (g1, Raise e) => (g1, Raise e) end) by reflexivity.
      rewrite !E. destruct (add_factors a g) as [g1 r1], (add_factors a' g') as [g1' r1']. cbn [fst snd] in R1, R2. subst r1'.
      destruct r1 as [u|e]; [|split; [reflexivity|exact R2]]. now apply IHl.
    - split; [reflexivity|exact Hg].
  Qed.
  Lemma built_same (g g' : fgraph A) : same_built vgs vgs' g g' -> same_graph g g'.
  Proof.
    induction 1 as [v v' E E'| | |g g' a a' Hb IH Ha]; [| | |now apply add_same];
      (split; [reflexivity|split; intros [ | | ]; constructor]).
  Qed.
  Lemma built_reach (g g' : fgraph A) : same_built vgs vgs' g g' -> reachable vgs g /\ reachable vgs' g'.
  Proof.
    induction 1 as [v v' E E'| | |g g' a a' Hb [IH1 IH2] Ha]; [| | |split; now apply reach_add];
      split; apply reach_new; cbn [arg_groups]; congruence.
  Qed.
  Lemma C70_additions_lemma (g g' : fgraph A) a a' : same_built vgs vgs' g g' -> same_arg vgs vgs' a a' -> snd (add_factors a g) = snd (add_factors a' g').
  Proof. intros Hb Ha. exact (proj1 (add_same a a' Ha g g' (built_same _ _ Hb))). Qed.

  (** ** Compilation *)
  Section Compiled.
    Variables g g' : fgraph A.
    Hypothesis Hb : same_built vgs vgs' g g'.
    Lemma starts_same x x' : sv x x' -> dget var_eqb x (gr_vars_to_starts g) = dget var_eqb x' (gr_vars_to_starts g').
    Proof.
      intros [k [H H']]. destruct (built_reach _ _ Hb) as [Hr Hr'].
      rewrite (proj1 (C06_lemma vgs g Hok Hr) k x H), (proj1 (C06_lemma vgs' g' Hok' Hr') k x' H').
      now rewrite <- !firstn_map, all_snd.
    Qed.
    Lemma vars_snd vss vss' : Forall2 (Forall2 sv) vss vss' -> map snd (concat vss) = map snd (concat vss').
    Proof. intros H. apply (F2_map_eq sv); [apply sv_snd|now apply F2_concat]. Qed.
    Lemma lookup_same vss vss' : Forall2 (Forall2 sv) vss vss' -> lookup_var_states (gr_vars_to_starts g) vss = lookup_var_states (gr_vars_to_starts g') vss'.
    Proof. intros H. unfold lookup_var_states. apply (F2_mapM_eq sv); [|now apply F2_concat]. intros x x' Hx. now rewrite (starts_same x x' Hx). Qed.
    Lemma enum_same junk h h' : sfg h h' -> fg_compile_enum junk h (gr_vars_to_starts g) = fg_compile_enum junk h' (gr_vars_to_starts g').
    Proof.
      intros [_ [_ [Ec [_ Hv]]]]. unfold fg_compile_enum, enum_compile_wiring, fg_factor_edges_num_states, fg_num_factors.
      now rewrite (vars_snd _ _ Hv), Ec, (F2_length _ _ _ Hv), (lookup_same _ _ Hv).
    Qed.
    Lemma logical_same junk h h' : sfg h h' -> fg_compile_logical junk h (gr_vars_to_starts g) = fg_compile_logical junk h' (gr_vars_to_starts g').
    Proof.
      intros [_ [Et [_ [_ Hv]]]]. unfold fg_compile_logical, logical_compile_wiring, fg_factor_edges_num_states, fg_factor_sizes.
      now rewrite (vars_snd _ _ Hv), Et, (F2_map_eq _ _ _ _ _ (F2_length sv) Hv), (lookup_same _ _ Hv).
    Qed.
    Lemma groups_same t : Forall2 sfg (pt_get t (gr_groups g)) (pt_get t (gr_groups g')).
    Proof. apply (built_same _ _ Hb). Qed.
    Lemma all_same : Forall2 sfg (all_groups (gr_groups g)) (all_groups (gr_groups g')).
    Proof.
      unfold all_groups, pt_values. cbn [concat]. rewrite !app_nil_r. apply Forall2_app; [exact (groups_same TEnum)|]. apply Forall2_app; [exact (groups_same TOr)|exact (groups_same TAnd)].
    Qed.
    Lemma wirings_same junk : compile_wirings junk (gr_vars_to_starts g) (gr_groups g) = compile_wirings junk (gr_vars_to_starts g') (gr_groups g').
    Proof.
      unfold compile_wirings. pose proof (groups_same TEnum) as G1. pose proof (groups_same TOr) as G2. pose proof (groups_same TAnd) as G3. cbn [pt_get] in G1, G2, G3.
      rewrite (F2_mapM_eq sfg _ (fun h => fg_compile_enum junk h (gr_vars_to_starts g')) _ _ (enum_same junk) G1).
      rewrite (F2_mapM_eq sfg _ (fun h => fg_compile_logical junk h (gr_vars_to_starts g')) _ _ (logical_same junk) G2).
      rewrite (F2_mapM_eq sfg _ (fun h => fg_compile_logical junk h (gr_vars_to_starts g')) _ _ (logical_same junk) G3).
      reflexivity.
    Qed.
    Lemma pots_same h h' : sfg h h' -> fg_log_potentials h = fg_log_potentials h'.
    Proof. now intros [_ [_ [_ [E _]]]]. Qed.
    Lemma log_pots_same : compile_log_potentials (gr_groups g) = compile_log_potentials (gr_groups g').
    Proof.
      unfold compile_log_potentials. pose proof (groups_same TEnum) as G1. pose proof (groups_same TOr) as G2. pose proof (groups_same TAnd) as G3. cbn [pt_get] in G1, G2, G3.
      rewrite (F2_map_eq sfg _ _ _ _ pots_same G1), (F2_map_eq sfg _ _ _ _ pots_same G2), (F2_map_eq sfg _ _ _ _ pots_same G3).
      reflexivity.
    Qed.
    Lemma total_same (f : fgroup A -> nat) : (forall h h', sfg h h' -> f h = f h') -> forall l l', Forall2 sfg l l' -> total f l = total f l'.
    Proof. intros H l l' HF. unfold total. now rewrite (F2_map_eq sfg f f l l' H HF). Qed.
    Lemma group_states_same h h' : sfg h h' -> group_states h = group_states h'.
    Proof. intros [_ [_ [_ [_ Hv]]]]. unfold group_states. now rewrite (vars_snd _ _ Hv). Qed.
    Lemma group_pots_same h h' : sfg h h' -> group_pots h = group_pots h'.
    Proof. intros H. unfold group_pots. now rewrite (pots_same _ _ H). Qed.
    Lemma per_type_eq {X} (p p' : per_type X) : (forall t, pt_get t p = pt_get t p') -> p = p'.
    Proof. intros H. destruct p, p'. pose proof (H TEnum) as E1. pose proof (H TOr) as E2. pose proof (H TAnd) as E3. cbn in *. congruence. Qed.
    Lemma offsets_same : let o := compute_offsets (gr_groups g) in let o' := compute_offsets (gr_groups g') in
      of_msgs_range o = of_msgs_range o' /\ of_pots_range o = of_pots_range o' /\ of_total_states o = of_total_states o'.
    Proof.
      intros o o'. destruct (compute_offsets_spec (gr_groups g)) as [R1 [R2 [R3 _]]]. destruct (compute_offsets_spec (gr_groups g')) as [S1 [S2 [S3 _]]].
      fold o in R1, R2, R3. fold o' in S1, S2, S3.
      pose proof (groups_same TEnum) as G1. pose proof (groups_same TOr) as G2. cbn [pt_get] in G1, G2.
      assert (E1 : forall t, type_start group_states t (gr_groups g) = type_start group_states t (gr_groups g')).
      { intros t. unfold type_start. now rewrite (total_same _ group_states_same _ _ G1), (total_same _ group_states_same _ _ G2). }
      assert (E2 : forall t, type_start group_pots t (gr_groups g) = type_start group_pots t (gr_groups g')).
      { intros t. unfold type_start. now rewrite (total_same _ group_pots_same _ _ G1), (total_same _ group_pots_same _ _ G2). }
      split; [|split].
      - apply per_type_eq. intros t. rewrite R1, S1, E1. now rewrite (total_same _ group_states_same _ _ (groups_same t)).
      - apply per_type_eq. intros t. rewrite R2, S2, E2. now rewrite (total_same _ group_pots_same _ _ (groups_same t)).
      - rewrite R3, S3. apply total_same; [exact group_states_same|exact all_same].
    Qed.
    Lemma C70_compiled_lemma junk : both same_compiled (compile_fg_state junk g) (compile_fg_state junk g').
    Proof.
      destruct (built_reach _ _ Hb) as [Hr Hr'].
      destruct (reachable_layout vgs g Hok Hr) as [L1 [_ L3]]. destruct (reachable_layout vgs' g' Hok' Hr') as [L1' [_ L3']].
      unfold compile_fg_state. rewrite <- (proj1 (built_same _ _ Hb)), wirings_same, log_pots_same. destruct (gr_is_list g); cbn [guard bind]; [|reflexivity].
      destruct (compile_wirings junk (gr_vars_to_starts g') (gr_groups g')) as [w|e]; cbn [bind both]; [|reflexivity].
      destruct offsets_same as [O1 [O2 O3]]. unfold same_compiled, mk_fg_state. cbn [st_variable_groups st_num_var_states st_total_factor_num_states st_msgs_range st_pots_range st_log_potentials st_wiring].
      rewrite L1, L1', L3, L3'. repeat (split; [first [assumption|reflexivity|unfold num_states_total; now rewrite all_snd]|]). reflexivity.
    Qed.

    (** ** Updates *)
    Section Updates.
      Variables (junk : nat -> Z) (st st' : fg_state A).
      Hypothesis Hc : compile_fg_state junk g = Ok st.
      Hypothesis Hc' : compile_fg_state junk g' = Ok st'.
      Lemma compiled_same : same_compiled st st'.
      Proof. pose proof (C70_compiled_lemma junk) as H. rewrite Hc, Hc' in H. exact H. Qed.
      Lemma st_starts_same x x' : sv x x' -> dget var_eqb x (st_vars_to_starts st) = dget var_eqb x' (st_vars_to_starts st').
      Proof.
        intros Hx. destruct (built_reach _ _ Hb) as [Hr Hr'].
        destruct (C06_compiled_lemma vgs g junk st Hok Hr Hc) as [_ [-> _]]. destruct (C06_compiled_lemma vgs' g' junk st' Hok' Hr' Hc') as [_ [-> _]]. now apply starts_same.
      Qed.
      Lemma vg_eqb_refl v : vg_eqb v v = true.
      Proof. unfold vg_eqb. apply Z.eqb_refl. Qed.
      Lemma first_place gs gs' : Forall2 same_group gs gs' -> forall i v v' x x' r r', nth_error gs i = Some v -> nth_error gs' i = Some v' ->
        vg_variables v = x :: r -> vg_variables v' = x' :: r' -> exists k, nth_error (all_vars gs) k = Some x /\ nth_error (all_vars gs') k = Some x'.
      Proof.
        unfold all_vars. induction 1 as [|u u' gs gs' Hu HF IH]; intros i v v' x x' r r' Hi Hi' E E'; [destruct i; discriminate|].
        cbn [map concat]. destruct i as [|i]; cbn [nth_error] in Hi, Hi'.
        - injection Hi as ->. injection Hi' as ->. exists 0. rewrite E, E'. split; reflexivity.
        - destruct (IH i v v' x x' r r' Hi Hi' E E') as [k [K K']]. exists (length (vg_variables u) + k).
          assert (L : length (vg_variables u) = length (vg_variables u')) by (rewrite <- (map_length snd (vg_variables u)), (same_group_snd _ _ Hu); apply map_length).
          rewrite nth_error_app2 by lia. rewrite (nth_error_app2 (vg_variables u')) by lia.
          replace (length (vg_variables u) + k - length (vg_variables u)) with k by lia.
          replace (length (vg_variables u) + k - length (vg_variables u')) with k by lia. split; assumption.
      Qed.
      Lemma evidence_same ev us us' : Forall2 (same_item (same_key vgs vgs')) us us' -> update_evidence st ev us = update_evidence st' ev us'.
      Proof.
        intros Hus. unfold update_evidence. apply (F2_foldM_eq (same_item (same_key vgs vgs'))); [|exact Hus]. clear ev us us' Hus.
        intros ev [k d] [k' d'] [Hk E]. cbn [fst snd] in Hk, E. subst d'. unfold update_evidence_step.
        destruct (built_reach _ _ Hb) as [Hr Hr'].
        destruct (C06_compiled_lemma vgs g junk st Hok Hr Hc) as [V1 _]. destruct (C06_compiled_lemma vgs' g' junk st' Hok' Hr' Hc') as [V1' _].
        destruct k as [v|x|], k' as [v'|x'|]; cbn [same_key] in Hk; try contradiction.
        - destruct Hk as [i [Hi Hi']]. rewrite V1, V1'.
          assert (B : forall gs w, nth_error gs i = Some w -> existsb (vg_eqb w) gs = true).
          { intros gs w Hw. apply existsb_exists. exists w. split; [apply (nth_error_In _ _ Hw)|apply vg_eqb_refl]. }
          rewrite (B vgs v Hi), (B vgs' v' Hi'). pose proof (F2_nth _ _ _ Hsame i v v' Hi Hi') as Hv.
          pose proof (same_group_snd _ _ Hv) as Es.
          destruct (vg_variables v) as [|x r] eqn:Ex, (vg_variables v') as [|x' r'] eqn:Ex'; try discriminate Es; [reflexivity|].
          rewrite (st_starts_same x x' (first_place _ _ Hsame i v v' x x' r r' Hi Hi' Ex Ex')).
          destruct (dget var_eqb x' (st_vars_to_starts st')); [|reflexivity]. now rewrite (same_group_flatten v v' d Hv).
        - rewrite (st_starts_same x x' Hk), (sv_snd x x' Hk). reflexivity.
        - reflexivity.
      Qed.
      Lemma messages_same `{Num A} ms us us' : Forall2 (same_item sv) us us' -> update_ftov_msgs st ms us = update_ftov_msgs st' ms us'.
      Proof.
        intros Hus. unfold update_ftov_msgs. apply (F2_foldM_eq (same_item sv)); [|exact Hus]. clear ms us us' Hus.
        intros ms [x d] [x' d'] [Hx E]. cbn [fst snd] in Hx, E. subst d'. unfold update_ftov_msgs_step.
        destruct compiled_same as [_ [_ [_ [_ [_ [_ Ew]]]]]]. rewrite (st_starts_same x x' Hx), (sv_snd x x' Hx), Ew. reflexivity.
      Qed.

      (** *** Log potentials *)
      Lemma make_factor_same h h' i vs vs' : sfg h h' -> Forall2 sv vs vs' -> both (fun _ _ => True) (fg_make_factor h i vs) (fg_make_factor h' i vs').
      Proof.
        intros [_ [Et [Ec [Ep _]]]] Hv. pose proof (F2_map_eq sv snd snd _ _ sv_snd Hv) as Es. pose proof (F2_length _ _ _ Hv) as El.
        unfold fg_make_factor. rewrite <- Et, <- Ec, <- Ep.
        assert (LF : forall t, both (fun _ _ => True) (LogicalFactor t vs) (LogicalFactor t vs')).
        { intros t. unfold LogicalFactor. rewrite El. rewrite (F2_forallb_eq sv (fun v => snd v =? 2) (fun v => snd v =? 2) vs vs') by (exact Hv || (intros x y Hx; now rewrite (sv_snd x y Hx))).
          destruct (length vs' <? 2); [reflexivity|]. destruct (negb _); [reflexivity|exact I]. }
        destruct (fg_type h).
        - unfold EnumFactor. cbn [negb shape data]. rewrite <- El.
          assert (En : forall u, snd (nth u vs (0%Z, 0)) = snd (nth u vs' (0%Z, 0))).
          { intros u. rewrite <- (map_nth snd vs (0%Z, 0) u), <- (map_nth snd vs' (0%Z, 0) u), Es. reflexivity. }
          destruct (negb (length (shape (fg_configs h)) =? 2)); [reflexivity|]. destruct (negb (length vs =? nth 1 (shape (fg_configs h)) 0)); [reflexivity|].
          destruct (negb (shape_eqb _ _)); [reflexivity|].
          match goal with |- both _ (bind (if negb (forallb ?f ?l) then _ else _) _) (bind (if negb (forallb ?f' ?l) then _ else _) _) => assert (Ef : forallb f l = forallb f' l) end.
          { apply (F2_forallb_eq eq); [intros r ? <-|clear; induction (seq 0 (nth 0 (shape (fg_configs h)) 0)); constructor; auto].
            apply (F2_forallb_eq eq); [intros u ? <-; cbv zeta; now rewrite En|clear; induction (seq 0 (length vs)); constructor; auto]. }
          rewrite Ef. destruct (negb _); [reflexivity|exact I].
        - specialize (LF TOr). destruct (LogicalFactor TOr vs), (LogicalFactor TOr vs'); exact LF.
        - specialize (LF TAnd). destruct (LogicalFactor TAnd vs), (LogicalFactor TAnd vs'); exact LF.
      Qed.
      Lemma dset_len_same {V V'} (d : list (list variable * V)) (d' : list (list variable * V')) k k' x x' :
        Forall2 (fun e e' => Forall2 sv (fst e) (fst e')) d d' -> Forall2 sv k k' ->
        Forall2 (fun e e' => Forall2 sv (fst e) (fst e')) (dset set_eqb k x d) (dset set_eqb k' x' d').
      Proof.
        intros Hd Hk. induction Hd as [|[a u] [a' u'] d d' Ha Hd IH]; cbn [dset]; [repeat constructor; exact Hk|].
        cbn [fst] in Ha. rewrite <- (set_same k k' a a' Hk Ha). destruct (set_eqb k a); constructor; auto.
      Qed.
      Lemma dupdate_len_same {V V'} (l : list (list variable * V)) (l' : list (list variable * V')) :
        Forall2 (fun e e' => Forall2 sv (fst e) (fst e')) l l' -> forall d d',
        Forall2 (fun e e' => Forall2 sv (fst e) (fst e')) d d' -> Forall2 (fun e e' => Forall2 sv (fst e) (fst e')) (dupdate set_eqb d l) (dupdate set_eqb d' l').
      Proof.
        unfold dupdate. induction 1 as [|[a u] [a' u'] l l' Ha Hl IH]; intros d d' Hd; [exact Hd|]. cbn [fold_left]. apply IH.
        cbn [fst] in Ha. now apply dset_len_same.
      Qed.
      Lemma factors_same h h' : sfg h h' -> both (fun f f' => length f = length f') (fg_factors h) (fg_factors h').
      Proof.
        intros Hh. pose proof Hh as [_ [_ [_ [_ Hv]]]]. unfold fg_factors, fg_variables_to_factors.
        assert (L : forall s vss vss', Forall2 (Forall2 sv) vss vss' ->
          both (Forall2 (fun (e e' : list variable * factor A) => Forall2 sv (fst e) (fst e')))
            (mapM (fun iv => f <- fg_make_factor h (fst iv) (snd iv) ;; Ok (snd iv, f)) (combine (seq s (length vss)) vss))
            (mapM (fun iv => f <- fg_make_factor h' (fst iv) (snd iv) ;; Ok (snd iv, f)) (combine (seq s (length vss')) vss'))).
        { intros s vss vss' HF. revert s. induction HF as [|vs vs' vss vss' Hvs HF IH]; intros s; [constructor|]. cbn [length seq combine mapM fst snd].
          pose proof (make_factor_same h h' s vs vs' Hh Hvs) as M. destruct (fg_make_factor h s vs) as [f|e], (fg_make_factor h' s vs') as [f'|e']; cbn [both] in M; try contradiction; cbn [bind]; [|exact M].
          specialize (IH (S s)). destruct (mapM _ _) as [r|e], (mapM _ (combine (seq (S s) (length vss')) vss')) as [r'|e']; cbn [both] in IH; try contradiction; cbn [bind both]; [|exact IH].
          constructor; [exact Hvs|exact IH]. }
        specialize (L 0 _ _ Hv). destruct (mapM _ _) as [r|e], (mapM _ (combine (seq 0 (length (fg_vars h'))) (fg_vars h'))) as [r'|e']; cbn [both] in L; try contradiction; cbn [bind both]; [|exact L].
        rewrite !map_length. apply (F2_length (fun e e' => Forall2 sv (fst e) (fst e'))). apply dupdate_len_same; [exact L|constructor].
      Qed.
      Lemma fg_flatten_same h h' (d : ndarray A) : sfg h h' -> fg_flatten h d = fg_flatten h' d.
      Proof.
        intros Hh. pose proof (factors_same h h' Hh) as F. pose proof Hh as [Ek [_ [Ec [_ Hv]]]]. unfold fg_flatten. rewrite <- Ek, <- Ec.
        assert (Ee : fg_first_edges h = fg_first_edges h').
        { unfold fg_first_edges. destruct Hv as [|vs vs' l l' H1 H2]; cbn [nth]; [reflexivity|]. now rewrite (F2_map_eq sv snd snd _ _ sv_snd H1). }
        destruct (fg_kind h); try reflexivity; destruct (fg_factors h) as [f|e], (fg_factors h') as [f'|e']; cbn [both] in F; try contradiction; cbn [bind]; try (now rewrite F, ?Ee).
      Qed.
      Hypothesis Hnd : NoDup (map fg_id (all_groups (gr_groups g))).
      Hypothesis Hnd' : NoDup (map fg_id (all_groups (gr_groups g'))).
      Lemma potentials_same lp us us' : Forall2 (same_item (same_place g g')) us us' -> update_log_potentials st lp us = update_log_potentials st' lp us'.
      Proof.
        intros Hus. unfold update_log_potentials. apply (F2_foldM_eq (same_item (same_place g g'))); [|exact Hus]. clear lp us us' Hus.
        intros lp [h d] [h' d'] [[i [Hi Hi']] E]. cbn [fst snd] in Hi, Hi', E. subst d'. unfold update_log_potentials_step.
        pose proof (F2_nth _ _ _ all_same i h h' Hi Hi') as Hh.
        assert (P : forall g0 s0, compile_fg_state junk g0 = Ok s0 -> st_group_pots_starts s0 = of_group_pots_starts (compute_offsets (gr_groups (A := A) g0))).
        { intros g0 s0 H0. destruct (compile_fg_state_inv _ _ _ H0) as [w [_ [-> _]]]. reflexivity. }
        rewrite (P g st Hc), (P g' st' Hc').
        destruct (compute_offsets_spec (gr_groups g)) as [_ [_ [_ [_ [R _]]]]]. destruct (compute_offsets_spec (gr_groups g')) as [_ [_ [_ [_ [S _]]]]].
        rewrite (proj2 (R Hnd i h Hi)), (proj2 (S Hnd' i h' Hi')).
        rewrite (total_same _ group_pots_same _ _ (F2_firstn _ _ _ all_same i)), (fg_flatten_same h h' d Hh), (pots_same h h' Hh). reflexivity.
      Qed.
    End Updates.
  End Compiled.
End Ids.

(** ** Runs and results *)
Section Runs.
  Context {A : Type} `{Num A}.
  Variables vgs vgs' : list vgroup.
  Hypothesis Hok : groups_ok vgs.
  Hypothesis Hok' : groups_ok vgs'.

  Lemma BP_same (bs bs' : bp_state A) (T : A) : same_compiled (bs_fg_state bs) (bs_fg_state bs') ->
    both (fun c c' => bc_state c = bs /\ bc_state c' = bs' /\ forall a n d, run_bp c a n d = run_bp c' a n d) (BP bs T) (BP bs' T).
  Proof.
    intros [_ [_ [_ [Em [Ep [_ Ew]]]]]]. unfold BP. rewrite <- Ew. destruct (all_edges_num_states (st_wiring (bs_fg_state bs))) as [|x l] eqn:El; [reflexivity|].
    cbn [both bc_state]. split; [reflexivity|]. split; [reflexivity|]. intros a n d. unfold run_bp. cbn [bc_edges_num_states bc_max_msg_size]. f_equal.
    assert (E : forall m, bp_step {| bc_state := bs; bc_temperature := T; bc_edges_num_states := x :: l; bc_max_msg_size := nat_max (x :: l); bc_var_states_for_edges := all_var_states_for_edges (st_wiring (bs_fg_state bs)) |} (ba_log_potentials a) (ba_evidence a) d m =
       bp_step {| bc_state := bs'; bc_temperature := T; bc_edges_num_states := x :: l; bc_max_msg_size := nat_max (x :: l); bc_var_states_for_edges := all_var_states_for_edges (st_wiring (bs_fg_state bs)) |} (ba_log_potentials a) (ba_evidence a) d m).
    { intros m. unfold bp_step, pass_fac_to_var_messages. cbn [bc_state bc_temperature bc_edges_num_states bc_max_msg_size bc_var_states_for_edges]. now rewrite Em, Ep, Ew. }
    generalize (normalize_and_clip_msgs (ba_ftov_msgs a) (x :: l) (nat_max (x :: l))). intros m0.
    induction n as [|n IH]; [reflexivity|]. cbn [Nat.iter nat_rect]. unfold Nat.iter in IH. now rewrite IH, E.
  Qed.

  Definition same_results {B} (b b' : list (vgroup * gdata B)) : Prop := Forall2 (same_item same_group) b b'.
  Lemma beliefs_fold_same flat gs gs' : groups_ok gs -> groups_ok gs' -> Forall2 same_group gs gs' -> forall s acc acc',
    (forall v, In v gs -> dget vg_eqb v acc = None) -> (forall v, In v gs' -> dget vg_eqb v acc' = None) -> same_results acc acc' ->
    both (fun r r' => fst r = fst r' /\ same_results (snd r) (snd r')) (fold_left (beliefs_step (A := A) flat) gs (Ok (s, acc))) (fold_left (beliefs_step flat) gs' (Ok (s, acc'))).
  Proof.
    intros Hg Hg' HF. revert Hg Hg'. induction HF as [|v v' gs gs' Hv HF IH]; intros Hg Hg' s acc acc' Ha Ha' Hs; [split; [reflexivity|exact Hs]|].
    apply groups_ok_cons in Hg. destruct Hg as [_ [_ [Hd Hg]]]. apply groups_ok_cons in Hg'. destruct Hg' as [_ [_ [Hd' Hg']]].
    cbn [fold_left]. unfold beliefs_step at 2 4. cbn [bind fst snd]. rewrite <- (same_group_num _ _ Hv), <- (same_group_unflatten NInf _ _ _ Hv).
    destruct (vg_unflatten NInf v _) as [x|e]; cbn [bind].
    - rewrite (dset_length_new _ v x acc), (dset_length_new _ v' x acc') by (first [apply Ha|apply Ha']; now left).
      apply IH; [exact Hg|exact Hg'| | |apply Forall2_app; [exact Hs|repeat constructor; exact Hv]].
      + intros w Hw. rewrite dget_app, Ha by (now right). cbn [dget]. destruct (vg_eqb w v) eqn:E; [|reflexivity].
        apply vg_eqb_ids in E. rewrite Forall_forall in Hd. specialize (Hd w Hw). congruence.
      + intros w Hw. rewrite dget_app, Ha' by (now right). cbn [dget]. destruct (vg_eqb w v') eqn:E; [|reflexivity].
        apply vg_eqb_ids in E. rewrite Forall_forall in Hd'. specialize (Hd' w Hw). congruence.
    - assert (R : forall l, fold_left (beliefs_step flat) l (Raise e) = Raise e) by (clear; induction l as [|y l IH]; [reflexivity|exact IH]).
      rewrite !R. reflexivity.
  Qed.
  Lemma beliefs_same c c' (a : bp_arrays A) : st_variable_groups (bs_fg_state (bc_state c)) = vgs -> st_variable_groups (bs_fg_state (bc_state c')) = vgs' ->
    Forall2 same_group vgs vgs' -> bc_var_states_for_edges c = bc_var_states_for_edges c' -> both same_results (get_beliefs c a) (get_beliefs c' a).
  Proof.
    intros E E' Hs Ev. unfold get_beliefs, unflatten_beliefs, flat_beliefs. rewrite E, E', Ev.
    pose proof (beliefs_fold_same (map Fin (scatter nadd (ba_evidence a) (bc_var_states_for_edges c') (ba_ftov_msgs a))) vgs vgs' Hok Hok' Hs 0 [] []
      (fun _ _ => eq_refl) (fun _ _ => eq_refl) (Forall2_nil _)) as F.
    destruct (fold_left _ vgs _) as [r|e], (fold_left _ vgs' _) as [r'|e']; cbn [both] in F; try contradiction; cbn [bind both]; [apply F|exact F].
  Qed.
  Lemma map_beliefs_same {B} (f : ndarray (ext A) -> res (ndarray B)) b b' : same_results b b' -> both same_results (map_beliefs f b) (map_beliefs f b').
  Proof.
    unfold map_beliefs. induction 1 as [|[v x] [v' x'] b b' [Hv E] Hb IH]; [constructor|]. cbn [fst snd] in Hv, E. subst x'. cbn [mapM fst snd].
    destruct (map_gdata f x) as [y|e]; cbn [bind]; [|reflexivity].
    destruct (mapM _ b) as [r|e], (mapM _ b') as [r'|e']; cbn [both] in IH; try contradiction; cbn [bind both]; [|exact IH].
    constructor; [split; [exact Hv|reflexivity]|exact IH].
  Qed.
  Lemma results_snd {B} (b b' : list (vgroup * gdata B)) : same_results b b' -> map snd b = map snd b'.
  Proof. apply F2_map_eq. now intros x y [_ E]. Qed.

  Hypothesis Hsame : Forall2 same_group vgs vgs'.
  Variables (g g' : fgraph A) (junk : nat -> Z).
  Hypothesis Hb : same_built vgs vgs' g g'.

  Lemma C70_updates_lemma st st' : compile_fg_state junk g = Ok st -> compile_fg_state junk g' = Ok st' ->
    (forall ev us us', Forall2 (same_item (same_key vgs vgs')) us us' -> update_evidence st ev us = update_evidence st' ev us') /\
    (forall ms us us', Forall2 (same_item (same_var vgs vgs')) us us' -> update_ftov_msgs st ms us = update_ftov_msgs st' ms us') /\
    (NoDup (map fg_id (all_groups (gr_groups g))) -> NoDup (map fg_id (all_groups (gr_groups g'))) ->
     forall lp us us', Forall2 (same_item (same_place g g')) us us' -> update_log_potentials st lp us = update_log_potentials st' lp us').
  Proof.
    intros Hc Hc'. split; [|split].
    - intros. now apply (evidence_same vgs vgs' Hok Hok' Hsame g g' Hb junk).
    - intros. now apply (messages_same vgs vgs' Hok Hok' Hsame g g' Hb junk).
    - intros Hnd Hnd' lp us us' Hus. now apply (potentials_same vgs vgs' Hok Hok' Hsame g g' Hb junk).
  Qed.

  Lemma C70_runs_lemma st st' (bs bs' : bp_state A) (T : A) : compile_fg_state junk g = Ok st -> compile_fg_state junk g' = Ok st' -> bs_fg_state bs = st -> bs_fg_state bs' = st' ->
    both (fun c c' =>
      (forall a n d, run_bp c a n d = run_bp c' a n d) /\
      (forall a, both (Forall2 (same_item same_group)) (get_beliefs c a) (get_beliefs c' a))) (BP bs T) (BP bs' T).
  Proof.
    intros Hc Hc' E E'. pose proof (compiled_same vgs vgs' Hok Hok' Hsame g g' Hb junk st st' Hc Hc') as S.
    assert (S' : same_compiled (bs_fg_state bs) (bs_fg_state bs')) by now rewrite E, E'.
    destruct (built_reach _ _ _ _ Hb) as [Hr Hr'].
    destruct (C06_compiled_lemma vgs g junk st Hok Hr Hc) as [V1 _]. destruct (C06_compiled_lemma vgs' g' junk st' Hok' Hr' Hc') as [V1' _].
    pose proof (BP_same bs bs' T S') as B.
    assert (W : forall b c, BP b T = Ok c -> bc_var_states_for_edges c = all_var_states_for_edges (st_wiring (bs_fg_state b))).
    { intros b c. unfold BP. destruct (all_edges_num_states _); [discriminate|]. now intros [= <-]. }
    pose proof (W bs) as W1. pose proof (W bs') as W2.
    destruct (BP bs T) as [c|e], (BP bs' T) as [c'|e']; cbn [both] in B; try contradiction; cbn [both]; [|exact B].
    destruct B as [B1 [B2 B3]]. split; [exact B3|]. intros a. apply beliefs_same; [now rewrite B1, E|now rewrite B2, E'|exact Hsame|].
    rewrite (W1 c eq_refl), (W2 c' eq_refl). destruct S' as [_ [_ [_ [_ [_ [_ Ew]]]]]]. now rewrite Ew.
  Qed.

  Lemma C70_results_lemma (b b' : list (vgroup * gdata (ext A))) : Forall2 (same_item same_group) b b' ->
    both (Forall2 (same_item same_group)) (decode_map_states b) (decode_map_states b') /\
    both (Forall2 (same_item same_group)) (get_marginals b) (get_marginals b').
  Proof. intros Hs. split; now apply map_beliefs_same. Qed.

  Hypothesis Hnd : NoDup (map fg_id (all_groups (gr_groups g))).
  Hypothesis Hnd' : NoDup (map fg_id (all_groups (gr_groups g'))).
  Lemma C70_program_lemma T lu lu' mu mu' eu eu' n d :
    Forall2 (same_item (same_place g g')) lu lu' -> Forall2 (same_item (same_var vgs vgs')) mu mu' -> Forall2 (same_item (same_key vgs vgs')) eu eu' ->
    outcome junk g T lu mu eu n d = outcome junk g' T lu' mu' eu' n d.
  Proof.
    intros Hl Hm He. unfold outcome. pose proof (C70_compiled_lemma vgs vgs' Hok Hok' Hsame g g' Hb junk) as C.
    destruct (compile_fg_state junk g) as [st|e] eqn:Hc, (compile_fg_state junk g') as [st'|e'] eqn:Hc'; cbn [both] in C; try contradiction; cbn [bind]; [|now rewrite C].
    destruct (C70_updates_lemma st st' Hc Hc') as [U1 [U2 U3]]. specialize (U3 Hnd Hnd').
    unfold default_bp_state, LogPotentials, FToVMessages, Evidence, BPState, same_state. cbn [bind c_state fst snd Nat.eqb negb orb].
    match goal with |- bind (BP ?x T) _ = bind (BP ?y T) _ => set (bs := x); set (bs' := y) end.
    pose proof (C70_runs_lemma st st' bs bs' T Hc Hc' eq_refl eq_refl) as R.
    assert (X : forall b c, BP b T = Ok c -> bc_state c = b).
    { intros b c. unfold BP. destruct (all_edges_num_states _); [discriminate|]. now intros [= <-]. }
    pose proof (X bs) as X1. pose proof (X bs') as X2.
    destruct (BP bs T) as [c|e], (BP bs' T) as [c'|e']; cbn [both] in R; try contradiction; cbn [bind]; [|now rewrite R].
    destruct R as [R1 R2]. specialize (X1 c eq_refl). specialize (X2 c' eq_refl).
    assert (I : bp_init c (Some lu) (Some mu) (Some eu) = bp_init c' (Some lu') (Some mu') (Some eu')).
    { unfold bp_init, bp_update. rewrite X1, X2. change (bs_fg_state bs) with st. change (bs_fg_state bs') with st'.
      destruct C as [_ [C2 [C3 [_ [_ [C6 _]]]]]].
      cbn [ba_log_potentials ba_ftov_msgs ba_evidence bs bs' bs_log_potentials bs_ftov_msgs bs_evidence c_value]. cbv [bs bs'].
      cbn [ba_log_potentials ba_ftov_msgs ba_evidence bs_log_potentials bs_ftov_msgs bs_evidence c_value snd].
      rewrite <- C2, <- C3, <- C6. rewrite (U3 _ lu lu' Hl). destruct (update_log_potentials st' _ lu') as [lp|e]; cbn [bind]; [|reflexivity].
      rewrite (U2 _ mu mu' Hm). destruct (update_ftov_msgs st' _ mu') as [ms|e]; cbn [bind]; [|reflexivity].
      now rewrite (U1 _ eu eu' He). }
    rewrite <- I. destruct (bp_init c (Some lu) (Some mu) (Some eu)) as [a|e]; cbn [bind]; [|reflexivity].
    rewrite <- R1. specialize (R2 (run_bp c a n d)). destruct (get_beliefs c _) as [b|e], (get_beliefs c' _) as [b'|e']; cbn [both] in R2; try contradiction; cbn [bind]; [|now rewrite R2].
    destruct (C70_results_lemma b b' R2) as [D1 D2].
    destruct (decode_map_states b) as [m|e], (decode_map_states b') as [m'|e']; cbn [both] in D1; try contradiction; cbn [bind]; [|now rewrite D1].
    destruct (get_marginals b) as [q|e], (get_marginals b') as [q'|e']; cbn [both] in D2; try contradiction; cbn [bind]; [|now rewrite D2].
    rewrite (results_snd _ _ R2), (results_snd _ _ D1), (results_snd _ _ D2). reflexivity.
  Qed.
End Runs.
