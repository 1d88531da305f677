(** * Proofs about adding factors (C16, C17). *)
From Verif Require Import FGraph Lists SpecFactor SpecFGraph SpecAdd LemFGraph LemFactor.
From Coq Require Import Lia.
Local Open Scope nat_scope.

Lemma pt_get_set_eq {X} t (x : X) p : pt_get t (pt_set t x p) = x.
Proof. now destruct t. Qed.
Lemma pt_get_set_neq {X} t u (x : X) p : t <> u -> pt_get u (pt_set t x p) = pt_get u p.
Proof. destruct t, u; intros H; try reflexivity; congruence. Qed.
Lemma pt_set_get {X} t (p : per_type X) : pt_set t (pt_get t p) p = p.
Proof. destruct t, p; reflexivity. Qed.
Lemma pt_set_set {X} t (x y : X) p : pt_set t x (pt_set t y p) = pt_set t x p.
Proof. destruct t, p; reflexivity. Qed.
Lemma ftype_dec (t u : ftype) : {t = u} + {t <> u}.
Proof. decide equality. Qed.

Lemma among_existsb vs vss : existsb (set_eqb vs) vss = true <-> among vs vss.
Proof.
  rewrite existsb_exists. unfold among. split; intros [ws [H1 H2]]; exists ws; split; auto; now apply set_eqb_spec.
Qed.
Lemma among_app vs a b : among vs (a ++ b) <-> among vs a \/ among vs b.
Proof.
  unfold among. split.
  - intros [ws [H1 H2]]. apply in_app_or in H1. destruct H1; [left|right]; eauto.
  - intros [[ws [H1 H2]]|[ws [H1 H2]]]; exists ws; split; auto; apply in_or_app; auto.
Qed.
Lemma among_same vs ws vss : same_set vs ws -> among ws vss -> among vs vss.
Proof. intros H [us [H1 H2]]. exists us. split; [exact H1|]. eapply same_set_trans; eassumption. Qed.
Lemma among_In vs vss : In vs vss -> among vs vss.
Proof. intros H. exists vs. split; [exact H|]. intros x. tauto. Qed.
Lemma among_1 vs ws : among vs [ws] <-> same_set vs ws.
Proof. split; [intros [us [[<-|[]] H]]; exact H|intros H; exists ws; split; [now left|exact H]]. Qed.

(** The first [length p] sets are fresh. *)
Definition fresh_prefix (rec p : list (list variable)) : Prop :=
  forall i vs, nth_error p i = Some vs -> ~ among vs (rec ++ firstn i p).

Lemma fresh_prefix_nil rec : fresh_prefix rec [].
Proof. intros i vs H. destruct i; discriminate. Qed.
Lemma fresh_prefix_cons rec vs p :
  fresh_prefix rec (vs :: p) <-> ~ among vs rec /\ fresh_prefix (rec ++ [vs]) p.
Proof.
  unfold fresh_prefix. split.
  - intros H. split.
    + specialize (H 0 vs eq_refl). simpl in H. now rewrite app_nil_r in H.
    + intros i ws Hi. specialize (H (S i) ws Hi). simpl in H. now rewrite <- app_assoc.
  - intros [H1 H2] [|i] ws Hi; simpl in *.
    + injection Hi as <-. now rewrite app_nil_r.
    + specialize (H2 i ws Hi). now rewrite <- app_assoc in H2.
Qed.

Lemma fresh_prefix_spec rec p :
  fresh_prefix rec p <-> distinct_sets p /\ forall vs, In vs p -> ~ among vs rec.
Proof.
  revert rec; induction p as [|vs p IH]; intros rec.
  - split; [|intros _; apply fresh_prefix_nil]. intros _. split; [constructor|]. intros vs [].
  - rewrite fresh_prefix_cons, IH. split.
    + intros [H1 [H2 H3]]. split.
      * constructor; [|exact H2]. apply Forall_forall. intros ws Hw Hs. apply (H3 ws Hw).
        apply among_app. right. apply among_1. now apply same_set_sym.
      * intros ws [<-|Hw]; [exact H1|]. intros Ha. apply (H3 ws Hw). apply among_app. now left.
    + intros [H1 H2]. inversion H1 as [|? ? HF Hd]; subst. split; [apply H2; now left|]. split; [exact Hd|].
      intros ws Hw Ha. apply among_app in Ha. destruct Ha as [Ha|Ha].
      * apply (H2 ws); [now right|exact Ha].
      * rewrite Forall_forall in HF. apply (HF ws Hw). apply among_1 in Ha. now apply same_set_sym.
Qed.

Lemma with_varsets_get {A} (g : fgraph A) p : gr_varsets (with_varsets g p) = p.
Proof. reflexivity. Qed.
Lemma with_varsets_twice {A} (g : fgraph A) p q : with_varsets (with_varsets g p) q = with_varsets g q.
Proof. reflexivity. Qed.
Lemma with_varsets_same {A} (g : fgraph A) : with_varsets g (gr_varsets g) = g.
Proof. destruct g; reflexivity. Qed.

(** The state after recording the sets [p] of type [t]. *)
Definition recorded {A} (t : ftype) (p : list (list variable)) (g : fgraph A) : fgraph A :=
  with_varsets g (pt_set t (pt_get t (gr_varsets g) ++ p) (gr_varsets g)).
Lemma recorded_nil {A} t (g : fgraph A) : recorded t [] g = g.
Proof. unfold recorded. now rewrite app_nil_r, pt_set_get, with_varsets_same. Qed.
Lemma recorded_app {A} t p q (g : fgraph A) : recorded t q (recorded t p g) = recorded t (p ++ q) g.
Proof.
  unfold recorded. rewrite with_varsets_twice, with_varsets_get, pt_get_set_eq, pt_set_set. now rewrite app_assoc.
Qed.
Lemma recorded_refused {A} t u p (g : fgraph A) :
  refused_sets u (recorded t p g) = if ftype_dec t u then refused_sets t g ++ p else refused_sets u g.
Proof.
  unfold refused_sets, recorded. rewrite with_varsets_get. destruct (ftype_dec t u) as [<-|H].
  - apply pt_get_set_eq.
  - now apply pt_get_set_neq.
Qed.

Lemma record_varsets_spec {A} t : forall vss (g : fgraph A),
  (fresh_prefix (refused_sets t g) vss /\ record_varsets t vss g = (recorded t vss g, Ok tt)) \/
  (exists i vs, nth_error vss i = Some vs /\ among vs (refused_sets t g ++ firstn i vss) /\
     fresh_prefix (refused_sets t g) (firstn i vss) /\
     record_varsets t vss g = (recorded t (firstn i vss) g, Raise ValueError)).
Proof.
  induction vss as [|vs r IH]; intros g; simpl.
  - left. rewrite recorded_nil. split; [apply fresh_prefix_nil|reflexivity].
  - destruct (existsb (set_eqb vs) (pt_get t (gr_varsets g))) eqn:E.
    + right. exists 0, vs. apply among_existsb in E. simpl. rewrite app_nil_r, recorded_nil.
      split; [reflexivity|]. split; [exact E|]. split; [apply fresh_prefix_nil|reflexivity].
    + fold (recorded t [vs] g). assert (Hn : ~ among vs (refused_sets t g)).
      { intros Ha. apply among_existsb in Ha. unfold refused_sets in Ha. congruence. }
      specialize (IH (recorded t [vs] g)). rewrite recorded_refused in IH.
      destruct (ftype_dec t t) as [_|F]; [|congruence].
      destruct IH as [[H1 H2]|[i [ws [H1 [H2 [H3 H4]]]]]].
      * left. split; [now apply fresh_prefix_cons|]. rewrite H2, recorded_app. reflexivity.
      * right. exists (S i), ws. simpl. split; [exact H1|]. split; [|split].
        -- now rewrite <- app_assoc in H2.
        -- now apply fresh_prefix_cons.
        -- rewrite H4, recorded_app. reflexivity.
Qed.

Lemma distinct_sets_app p q :
  distinct_sets (p ++ q) <-> distinct_sets p /\ distinct_sets q /\ forall vs, In vs q -> ~ among vs p.
Proof.
  induction p as [|vs p IH]; simpl.
  - split; [intros H; split; [constructor|split; [exact H|]]|tauto].
    intros vs _ [ws [[] _]].
  - split.
    + intros H. inversion H as [|? ? HF Hd]; subst. apply IH in Hd. destruct Hd as [H1 [H2 H3]].
      rewrite Forall_forall in HF. split; [|split; [exact H2|]].
      * constructor; [|exact H1]. apply Forall_forall. intros ws Hw. apply HF. apply in_or_app. now left.
      * intros ws Hw [us [[<-|Hu] Hs]].
        -- apply (HF ws); [apply in_or_app; now right|now apply same_set_sym].
        -- apply (H3 ws Hw). now exists us.
    + intros [H1 [H2 H3]]. inversion H1 as [|? ? HF Hd]; subst. rewrite Forall_forall in HF. constructor.
      * apply Forall_forall. intros ws Hw. apply in_app_or in Hw. destruct Hw as [Hw|Hw]; [now apply HF|].
        intros Hs. apply (H3 ws Hw). exists vs. split; [now left|now apply same_set_sym].
      * apply IH. split; [exact Hd|]. split; [exact H2|]. intros ws Hw [us [Hu Hs]].
        apply (H3 ws Hw). exists us. split; [now right|exact Hs].
Qed.

Lemma distinct_sets_firstn i p : distinct_sets p -> distinct_sets (firstn i p).
Proof. intros H. rewrite <- (firstn_skipn i p) in H. now apply distinct_sets_app in H. Qed.

(** Invariant of reachable graphs. *)
Definition add_inv {A} (g : fgraph A) : Prop :=
  forall t, distinct_sets (refused_sets t g) /\ distinct_sets (factor_sets t g) /\
    (forall vs, In vs (factor_sets t g) -> In vs (refused_sets t g)) /\
    (forall fg, In fg (pt_get t (gr_groups g)) -> fg_type fg = t).

Lemma add_group_cases {A} (fg : fgroup A) g :
  let t := fg_type fg in
  (fresh_prefix (refused_sets t g) (fg_vars fg) /\
   add_group fg g = (with_groups (recorded t (fg_vars fg) g)
                       (pt_set t (pt_get t (gr_groups g) ++ [fg]) (gr_groups g)), Ok tt)) \/
  (exists i vs, nth_error (fg_vars fg) i = Some vs /\ among vs (refused_sets t g ++ firstn i (fg_vars fg)) /\
     fresh_prefix (refused_sets t g) (firstn i (fg_vars fg)) /\
     add_group fg g = (recorded t (firstn i (fg_vars fg)) g, Raise ValueError)).
Proof.
  intros t. unfold add_group. fold t. destruct (record_varsets_spec t (fg_vars fg) g) as [[H1 H2]|[i [vs [H1 [H2 [H3 H4]]]]]].
  - left. rewrite H2. split; [exact H1|reflexivity].
  - right. exists i, vs. rewrite H4. auto.
Qed.

Lemma with_groups_refused {A} t (g : fgraph A) p : refused_sets t (with_groups g p) = refused_sets t g.
Proof. reflexivity. Qed.
Lemma recorded_factor_sets {A} t u p (g : fgraph A) : factor_sets u (recorded t p g) = factor_sets u g.
Proof. reflexivity. Qed.
Lemma added_factor_sets {A} t u (fg : fgroup A) g g' :
  factor_sets u (with_groups g' (pt_set t (pt_get t (gr_groups g) ++ [fg]) (gr_groups g)))
  = if ftype_dec t u then factor_sets t g ++ fg_vars fg else factor_sets u g.
Proof.
  unfold factor_sets. simpl. destruct (ftype_dec t u) as [<-|H].
  - rewrite pt_get_set_eq, map_app, concat_app. simpl. now rewrite app_nil_r.
  - now rewrite pt_get_set_neq.
Qed.

Lemma add_group_inv {A} (fg : fgroup A) g : add_inv g -> add_inv (fst (add_group fg g)).
Proof.
  intros HI. pose proof (add_group_cases fg g) as Hc. cbv zeta in Hc. set (t := fg_type fg) in *.
  assert (Ht : fg_type fg = t) by reflexivity. clearbody t.
  destruct Hc as [[Hf E]|[i [vs [Hi [Ha [Hf E]]]]]]; rewrite E; simpl fst; intros u;
    destruct (HI u) as [I1 [I2 [I3 I4]]]; apply fresh_prefix_spec in Hf; destruct Hf as [F1 F2].
  - rewrite with_groups_refused, recorded_refused, added_factor_sets.
    destruct (ftype_dec t u) as [<-|Hne].
    + split; [now apply distinct_sets_app|]. split; [|split].
      * apply distinct_sets_app. split; [exact I2|]. split; [exact F1|].
        intros ws Hw [us [Hu Hs]]. apply (F2 ws Hw). exists us. split; [now apply I3|exact Hs].
      * intros ws Hw. apply in_app_or in Hw. apply in_or_app. destruct Hw; [left; now apply I3|now right].
      * intros fg'. simpl. rewrite pt_get_set_eq. intros Hin. apply in_app_or in Hin.
        destruct Hin as [Hin|[<-|[]]]; [now apply I4|exact Ht].
    + split; [exact I1|]. split; [exact I2|]. split; [exact I3|].
      intros fg'. simpl. rewrite pt_get_set_neq by exact Hne. apply I4.
  - rewrite recorded_refused. destruct (ftype_dec t u) as [<-|Hne].
    + split; [now apply distinct_sets_app|]. split; [exact I2|]. split; [|exact I4].
      intros ws Hw. apply in_or_app. left. now apply I3.
    + auto.
Qed.

Lemma FactorGraph_groups {A} arg : gr_groups (@FactorGraph A arg) = PT [] [] [] /\ gr_varsets (@FactorGraph A arg) = PT [] [] [].
Proof. unfold FactorGraph. destruct arg; auto. Qed.

Lemma reachable_inv {A} gs (g : fgraph A) : reachable gs g -> add_inv g.
Proof.
  intros H. induction H as [arg Harg|g a H IH].
  - intros t. unfold refused_sets, factor_sets. destruct (@FactorGraph_groups A arg) as [-> ->].
    destruct t; simpl; (split; [constructor|split; [constructor|split; intros ? []]]).
  - apply add_factors_inv; [|exact IH]. intros fg g' Hg'. now apply add_group_inv.
Qed.

Lemma C16_lemma {A} gs (g : fgraph A) : reachable gs g ->
  forall t, distinct_sets (factor_sets t g) /\
    (forall fg, In fg (pt_get t (gr_groups g)) -> fg_type fg = t).
Proof. intros H t. destruct (reachable_inv gs g H t) as [_ [H1 [_ H2]]]. auto. Qed.

(** What one addition does. *)
Lemma C16_add_lemma {A} gs (g : fgraph A) (fg : fgroup A) : reachable gs g ->
  let t := fg_type fg in
  let g' := fst (add_factors (AGroup fg) g) in
  let r := snd (add_factors (AGroup fg) g) in
  (r = Raise ValueError <->
     ~ (distinct_sets (fg_vars fg) /\ forall vs, In vs (fg_vars fg) -> ~ among vs (refused_sets t g))) /\
  (r = Ok tt \/ r = Raise ValueError) /\
  (r = Ok tt -> pt_get t (gr_groups g') = pt_get t (gr_groups g) ++ [fg] /\
                refused_sets t g' = refused_sets t g ++ fg_vars fg) /\
  (r = Raise ValueError -> gr_groups g' = gr_groups g) /\
  (forall u, u <> t -> pt_get u (gr_groups g') = pt_get u (gr_groups g) /\ refused_sets u g' = refused_sets u g).
Proof.
  intros Hr t g' r. unfold g', r. simpl. clear g' r.
  pose proof (add_group_cases fg g) as Hc. cbv zeta in Hc. fold t in Hc. clearbody t.
  destruct Hc as [[Hf E]|[i [vs [Hi [Ha [Hf E]]]]]]; rewrite E; simpl.
  - pose proof Hf as Hf'. apply fresh_prefix_spec in Hf'. split; [split; [discriminate|tauto]|].
    split; [now left|]. split; [|split; [discriminate|]].
    + intros _. rewrite pt_get_set_eq. split; [reflexivity|]. rewrite with_groups_refused, recorded_refused.
      now destruct (ftype_dec t t).
    + intros u Hu. rewrite pt_get_set_neq by congruence. split; [reflexivity|].
      rewrite with_groups_refused, recorded_refused. destruct (ftype_dec t u); [congruence|reflexivity].
  - split; [split; [|reflexivity]|].
    + intros _ H. apply fresh_prefix_spec in H. now apply (H i vs Hi).
    + split; [now right|]. split; [discriminate|]. split; [reflexivity|].
      intros u Hu. split; [reflexivity|]. rewrite recorded_refused. destruct (ftype_dec t u); [congruence|reflexivity].
Qed.

(** Existing groups are kept by any call. *)
Lemma C16_keep_lemma {A} (a : add_arg A) g t :
  exists more, pt_get t (gr_groups (fst (add_factors a g))) = pt_get t (gr_groups g) ++ more.
Proof.
  apply (add_factors_inv (fun g' => exists more, pt_get t (gr_groups g') = pt_get t (gr_groups g) ++ more)).
  2: { exists []. now rewrite app_nil_r. }
  intros fg g1 [more Hm]. destruct (add_group_cases fg g1) as [[_ E]|[i [vs [_ [_ [_ E]]]]]]; rewrite E; simpl.
  - destruct (ftype_dec (fg_type fg) t) as [<-|Hne].
    + rewrite pt_get_set_eq, Hm. exists (more ++ [fg]). now rewrite app_assoc.
    + rewrite pt_get_set_neq by exact Hne. now exists more.
  - now exists more.
Qed.

Lemma C16_refused_lemma {A} gs (g : fgraph A) t : reachable gs g ->
  forall vs, In vs (factor_sets t g) -> In vs (refused_sets t g).
Proof. intros H. now destruct (reachable_inv gs g H t) as [_ [_ [H1 _]]]. Qed.

(** ** C17 *)
(** [vs] is refused although no factor uses it. *)
Definition reserved {A} (t : ftype) (vs : list variable) (g : fgraph A) : Prop :=
  In vs (refused_sets t g) /\ ~ among vs (factor_sets t g).

Lemma reserved_stays {A} t vs (a : add_arg A) g : reserved t vs g -> reserved t vs (fst (add_factors a g)).
Proof.
  apply (add_factors_inv (reserved t vs)). clear. intros fg g [H1 H2].
  destruct (add_group_cases fg g) as [[Hf E]|[i [ws [_ [_ [_ E]]]]]]; rewrite E; simpl fst.
  - split.
    + rewrite with_groups_refused, recorded_refused.
      destruct (ftype_dec (fg_type fg) t) as [<-|]; [apply in_or_app; now left|exact H1].
    + rewrite added_factor_sets. destruct (ftype_dec (fg_type fg) t) as [<-|]; [|exact H2].
      intros Ha. apply among_app in Ha. destruct Ha as [Ha|[us [Hu Hs]]]; [contradiction|].
      apply fresh_prefix_spec in Hf. destruct Hf as [_ Hf]. apply (Hf us Hu). exists vs. split; [exact H1|].
      now apply same_set_sym.
  - split; [|exact H2]. rewrite recorded_refused.
    destruct (ftype_dec (fg_type fg) t) as [<-|]; [apply in_or_app; now left|exact H1].
Qed.

Lemma reserved_after {A} t vs (l : list (add_arg A)) g : reserved t vs g -> reserved t vs (after_adds l g).
Proof. revert g; induction l as [|a l IH]; intros g H; simpl; [exact H|]. apply IH. now apply reserved_stays. Qed.

Lemma add_group_refused {A} (fg : fgroup A) g vs :
  In vs (refused_sets (fg_type fg) g) -> among vs (fg_vars fg) -> snd (add_group fg g) = Raise ValueError.
Proof.
  intros H1 [us [Hu Hs]]. destruct (add_group_cases fg g) as [[Hf E]|[i [ws [_ [_ [_ E]]]]]]; rewrite E; [|reflexivity].
  apply fresh_prefix_spec in Hf. destruct Hf as [_ Hf]. exfalso. apply (Hf us Hu). exists vs. split; [exact H1|].
  now apply same_set_sym.
Qed.

Lemma C17_lemma {A} gs (g : fgraph A) (fg : fgroup A) :
  reachable gs g -> snd (add_factors (AGroup fg) g) = Raise ValueError ->
  let g' := fst (add_factors (AGroup fg) g) in
  gr_groups g' = gr_groups g /\
  exists i dup, nth_error (fg_vars fg) i = Some dup /\
    among dup (refused_sets (fg_type fg) g ++ firstn i (fg_vars fg)) /\
    refused_sets (fg_type fg) g' = refused_sets (fg_type fg) g ++ firstn i (fg_vars fg) /\
    forall vs, In vs (firstn i (fg_vars fg)) ->
    forall later fg2, fg_type fg2 = fg_type fg -> among vs (fg_vars fg2) ->
      let g2 := after_adds later g' in
      ~ among vs (factor_sets (fg_type fg) g2) /\
      snd (add_factors (AGroup fg2) g2) = Raise ValueError.
Proof.
  intros Hr Hraise g'. unfold g' in *. clear g'. simpl in *.
  pose proof (add_group_cases fg g) as Hc. cbv zeta in Hc. set (t := fg_type fg) in *. clearbody t.
  destruct Hc as [[Hf E]|[i [dup [Hi [Ha [Hf E]]]]]]; rewrite E in *; simpl in *; [discriminate|].
  split; [reflexivity|]. exists i, dup. split; [exact Hi|]. split; [exact Ha|]. split.
  { rewrite recorded_refused. now destruct (ftype_dec t t). }
  intros vs Hvs later fg2 Ht Ham.
  assert (Hres : reserved t vs (recorded t (firstn i (fg_vars fg)) g)).
  { split.
    - rewrite recorded_refused. destruct (ftype_dec t t); [|congruence]. apply in_or_app. now right.
    - rewrite recorded_factor_sets. apply fresh_prefix_spec in Hf. destruct Hf as [_ Hf].
      intros [us [Hu Hs]]. apply (Hf vs Hvs). exists us. split; [|exact Hs].
      eapply C16_refused_lemma; eassumption. }
  apply (reserved_after t vs later) in Hres. destruct Hres as [R1 R2]. split; [exact R2|].
  apply add_group_refused with vs; [rewrite Ht; exact R1|exact Ham].
Qed.

(** Lists: elements before the failing one are kept, later ones are not tried. *)
Lemma C17_list_lemma {A} (l1 l2 : list (add_arg A)) a g g1 g2 e :
  add_factors (AList l1) g = (g1, Ok tt) -> add_factors a g1 = (g2, Raise e) ->
  add_factors (AList (l1 ++ a :: l2)) g = (g2, Raise e).
Proof.
  rewrite !add_factors_list. revert g. induction l1 as [|b l1 IH]; intros g H1 H2; simpl in *.
  - injection H1 as <-. now rewrite H2.
  - destruct (add_factors b g) as [g' [u|e']]; [|discriminate]. now apply IH.
Qed.
