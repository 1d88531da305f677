(** * Proofs about histories of several graphs sharing the caches (C19, C44). *)
From Verif Require Import FGraph BPState Lists SpecVGroup SpecFactor SpecFGraph SpecAdd SpecWiring SpecState.
From Verif Require Import LemFGraph LemFactor LemAdd LemWiring LemGraph LemState.
From Coq Require Import Lia.
Local Open Scope nat_scope.

Lemma key_eqb_eq k k' : key_eqb k k' = true <-> k = k'.
Proof.
  unfold key_eqb, zlist_eqb. destruct k as [[b l] m], k' as [[b' l'] m']. cbn [fst snd].
  rewrite !andb_true_iff, Bool.eqb_true_iff. split.
  - intros [[H1 H2] H3]. destruct (list_eq_dec Z.eq_dec l l'); [|discriminate].
    destruct (list_eq_dec Z.eq_dec m m'); [|discriminate]. congruence.
  - intros H. injection H as -> -> ->. destruct (list_eq_dec Z.eq_dec l' l'); [|contradiction].
    destruct (list_eq_dec Z.eq_dec m' m'); [|contradiction]. auto.
Qed.
Lemma key_eqb_refl k : key_eqb k k = true.
Proof. now apply key_eqb_eq. Qed.
Lemma kget_In {V} k (d : list (cache_key * V)) v : dget key_eqb k d = Some v -> In (k, v) d.
Proof. intros H. apply dget_In in H. destruct H as [k' [Hi E]]. apply key_eqb_eq in E. now subst. Qed.
Lemma kget_cons_eq {V} k v (d : list (cache_key * V)) : dget key_eqb k ((k, v) :: d) = Some v.
Proof. cbn [dget]. now rewrite key_eqb_refl. Qed.
Lemma kget_cons_neq {V} k k' v (d : list (cache_key * V)) : k <> k' -> dget key_eqb k ((k', v) :: d) = dget key_eqb k d.
Proof. intros H. cbn [dget]. destruct (key_eqb k k') eqn:E; [apply key_eqb_eq in E; contradiction|reflexivity]. Qed.

(** ** Graphs determined by their keys *)
Definition wfg {A} (g : fgraph A) : Prop :=
  gr_vars_to_starts g = fst (fold_left vars_to_starts_step (gr_variable_groups g) ([], 0)) /\
  gr_num_var_states g = snd (fold_left vars_to_starts_step (gr_variable_groups g) ([], 0)) /\
  forall t h, In h (pt_get t (gr_groups g)) -> fg_type h = t.

Lemma wfg_new {A} arg : wfg (@FactorGraph A arg).
Proof.
  unfold wfg, FactorGraph. destruct arg; cbn [gr_vars_to_starts gr_num_var_states gr_variable_groups gr_groups];
  (split; [reflexivity|split; [reflexivity|intros [] h []]]).
Qed.
Lemma wfg_add {A} (a : add_arg A) g : wfg g -> wfg (fst (add_factors a g)).
Proof.
  intros [H1 [H2 H3]]. destruct (add_factors_frame a g) as [E1 [E2 [E3 _]]]. cbv zeta in *.
  unfold wfg. rewrite E1, E2, E3. split; [exact H1|]. split; [exact H2|].
  clear - H3. revert H3. apply (add_factors_inv (fun g => forall t h, In h (pt_get t (gr_groups g)) -> fg_type h = t)).
  intros fg g1 H3. destruct (add_group_cases fg g1) as [[_ E]|[i [vs [_ [_ [_ E]]]]]]; rewrite E; simpl.
  - intros t h Hh. destruct (ftype_dec (fg_type fg) t) as [<-|Hne].
    + rewrite pt_get_set_eq in Hh. apply in_app_or in Hh. destruct Hh as [Hh|[<-|[]]]; auto.
    + rewrite pt_get_set_neq in Hh by exact Hne. auto.
  - exact H3.
Qed.

Definition same_content {A} (g g' : fgraph A) : Prop :=
  gr_is_list g = gr_is_list g' /\ gr_variable_groups g = gr_variable_groups g' /\ gr_groups g = gr_groups g'.
Lemma content_compile {A} (g g' : fgraph A) junk : wfg g -> wfg g' -> same_content g g' ->
  gr_vars_to_starts g = gr_vars_to_starts g' /\ compile_fg_state junk g = compile_fg_state junk g'.
Proof.
  intros [H1 [H2 _]] [H3 [H4 _]] [E1 [E2 E3]].
  assert (V : gr_vars_to_starts g = gr_vars_to_starts g') by congruence.
  assert (N : gr_num_var_states g = gr_num_var_states g') by congruence.
  split; [exact V|]. unfold compile_fg_state, mk_fg_state. rewrite E1, E2, E3, V, N. reflexivity.
Qed.

Lemma map_inj_eq {X Y} (f : X -> Y) l l' :
  (forall x y, In x l -> In y l' -> f x = f y -> x = y) -> map f l = map f l' -> l = l'.
Proof.
  revert l'. induction l as [|x l IH]; intros [|y l'] H E; try discriminate; [reflexivity|].
  cbn [map] in E. injection E as E1 E2. f_equal.
  - apply H; [now left|now left|exact E1].
  - apply IH; [|exact E2]. intros a b Ha Hb. apply H; now right.
Qed.

Definition ftype_eqb (t u : ftype) : bool := if ftype_dec t u then true else false.
Lemma filter_typed {A} t (l : list (fgroup A)) u : (forall h, In h l -> fg_type h = u) ->
  filter (fun h => ftype_eqb (fg_type h) t) l = if ftype_dec u t then l else [].
Proof.
  induction l as [|h l IH]; intros H; [now destruct (ftype_dec u t)|]. cbn [filter].
  rewrite (H h (or_introl eq_refl)), IH by (intros x Hx; apply H; now right). unfold ftype_eqb.
  destruct (ftype_dec u t); reflexivity.
Qed.
Lemma typed_split {A} (p : per_type (list (fgroup A))) : (forall t h, In h (pt_get t p) -> fg_type h = t) ->
  forall t, pt_get t p = filter (fun h => ftype_eqb (fg_type h) t) (all_groups p).
Proof.
  intros H t. unfold all_groups, pt_values. cbn [concat]. rewrite app_nil_r, !filter_app.
  rewrite (filter_typed t (pt_enum p) TEnum) by (intros h Hh; exact (H TEnum h Hh)).
  rewrite (filter_typed t (pt_or p) TOr) by (intros h Hh; exact (H TOr h Hh)).
  rewrite (filter_typed t (pt_and p) TAnd) by (intros h Hh; exact (H TAnd h Hh)).
  destruct (ftype_dec TEnum t), (ftype_dec TOr t), (ftype_dec TAnd t); subst; try discriminate;
    cbn [app pt_get]; rewrite ?app_nil_r; try reflexivity. destruct t; congruence.
Qed.

Lemma key_content {A} (g g' : fgraph A) : wfg g -> wfg g' -> graph_key g = graph_key g' ->
  (forall h h', In h (all_groups (gr_groups g)) -> In h' (all_groups (gr_groups g')) -> fg_id h = fg_id h' -> h = h') ->
  (forall v v', In v (gr_variable_groups g) -> In v' (gr_variable_groups g') -> vg_hash (vg_id v) = vg_hash (vg_id v') -> v = v') ->
  same_content g g'.
Proof.
  intros [_ [_ T]] [_ [_ T']] E Hf Hv. unfold graph_key in E. injection E as E1 E2 E3.
  split; [exact E1|]. split; [exact (map_inj_eq _ _ _ Hv E2)|].
  pose proof (map_inj_eq _ _ _ Hf E3) as EG. fold (all_groups (gr_groups g)) in EG. fold (all_groups (gr_groups g')) in EG.
  assert (G : forall t, pt_get t (gr_groups g) = pt_get t (gr_groups g')) by (intros t; rewrite !typed_split by assumption; congruence).
  pose proof (G TEnum) as G1. pose proof (G TOr) as G2. pose proof (G TAnd) as G3.
  destruct (gr_groups g), (gr_groups g'). cbn in *. congruence.
Qed.

(** ** Growth of a world *)
Definition ids_ok {A} (w : world A) : Prop :=
  (forall o o' h h', In o (wo_graphs w) -> In o' (wo_graphs w) ->
     In h (all_groups (gr_groups (go_graph o))) -> In h' (all_groups (gr_groups (go_graph o'))) ->
     fg_id h = fg_id h' -> h = h') /\
  (forall o o' v v', In o (wo_graphs w) -> In o' (wo_graphs w) ->
     In v (gr_variable_groups (go_graph o)) -> In v' (gr_variable_groups (go_graph o')) ->
     vg_hash (vg_id v) = vg_hash (vg_id v') -> v = v').
Lemma distinct_ids_ok {A} (w : world A) : distinct_ids (map go_graph (wo_graphs w)) -> ids_ok w.
Proof.
  intros [H1 H2]. split.
  - intros o o' h h' Ho Ho'. apply H1; now apply in_map.
  - intros o o' v v' Ho Ho'. apply H2; now apply in_map.
Qed.

Definition within {A} (g g' : fgraph A) : Prop :=
  gr_is_list g = gr_is_list g' /\ gr_variable_groups g = gr_variable_groups g' /\
  incl (all_groups (gr_groups g)) (all_groups (gr_groups g')).
Lemma within_refl {A} (g : fgraph A) : within g g.
Proof. split; [reflexivity|]. split; [reflexivity|apply incl_refl]. Qed.
Lemma within_trans {A} (a b c : fgraph A) : within a b -> within b c -> within a c.
Proof. intros [H1 [H2 H3]] [K1 [K2 K3]]. split; [congruence|]. split; [congruence|]. eapply incl_tran; eassumption. Qed.
Lemma within_add {A} (a : add_arg A) g : within g (fst (add_factors a g)).
Proof.
  destruct (add_factors_frame a g) as [E1 [_ [_ E4]]]. split; [now symmetry|]. split; [now symmetry|].
  intros h Hh. apply In_all_groups in Hh. destruct Hh as [t Ht]. apply In_all_groups. exists t.
  destruct (C16_keep_lemma a g t) as [more ->]. apply in_or_app. now left.
Qed.
Definition grows {A} (w w' : world A) : Prop :=
  forall o, In o (wo_graphs w) -> exists o', In o' (wo_graphs w') /\ within (go_graph o) (go_graph o').
Lemma grows_refl {A} (w : world A) : grows w w.
Proof. intros o Ho. exists o. split; [exact Ho|apply within_refl]. Qed.
Lemma grows_trans {A} (a b c : world A) : grows a b -> grows b c -> grows a c.
Proof.
  intros H K o Ho. destruct (H o Ho) as [o1 [H1 W1]]. destruct (K o1 H1) as [o2 [H2 W2]].
  exists o2. split; [exact H2|]. eapply within_trans; eassumption.
Qed.
Lemma grows_ids {A} (w w' : world A) : grows w w' -> ids_ok w' -> ids_ok w.
Proof.
  intros G [H1 H2]. split.
  - intros o o' h h' Ho Ho' Hh Hh'. destruct (G o Ho) as [p [Hp [_ [_ I]]]]. destruct (G o' Ho') as [p' [Hp' [_ [_ I']]]].
    apply (H1 p p'); auto.
  - intros o o' v v' Ho Ho' Hv Hv'. destruct (G o Ho) as [p [Hp [_ [I _]]]]. destruct (G o' Ho') as [p' [Hp' [_ [I' _]]]].
    apply (H2 p p'); congruence.
Qed.

Lemma In_upd {A} i (x : A) l y : In y (upd i (fun _ => x) l) -> y = x \/ In y l.
Proof.
  revert i. induction l as [|z l IH]; intros i H; [destruct i; destruct H|]. destruct i as [|i]; cbn [upd] in H.
  - destruct H as [<-|H]; [now left|right; now right].
  - destruct H as [<-|H]; [right; now left|]. destruct (IH i H); [now left|right; now right].
Qed.
Lemma In_upd_old {A} i (x : A) l y z : nth_error l i = Some y -> In z l -> z = y \/ In z (upd i (fun _ => x) l).
Proof.
  revert i. induction l as [|a l IH]; intros i H Hz; [destruct Hz|]. destruct i as [|i]; cbn [upd nth_error] in *.
  - injection H as ->. destruct Hz as [<-|Hz]; [now left|right; now right].
  - destruct Hz as [<-|Hz]; [right; now left|]. destruct (IH i H Hz); [now left|right; now right].
Qed.
Lemma In_upd_new {A} i (x : A) l y : nth_error l i = Some y -> In x (upd i (fun _ => x) l).
Proof.
  revert i. induction l as [|a l IH]; intros i H; [destruct i; discriminate|]. destruct i as [|i]; cbn [upd nth_error] in *.
  - now left.
  - right. eapply IH; exact H.
Qed.

Lemma grows_upd {A} (w w' : world A) i o o' :
  nth_error (wo_graphs w) i = Some o -> wo_graphs w' = upd i (fun _ => o') (wo_graphs w) ->
  within (go_graph o) (go_graph o') -> grows w w'.
Proof.
  intros Hi E W p Hp. rewrite E. destruct (In_upd_old i o' _ o p Hi Hp) as [->|H].
  - exists o'. split; [eapply In_upd_new; exact Hi|exact W].
  - exists p. split; [exact H|apply within_refl].
Qed.

Lemma upd_same_nth_error {A} i (x : A) l : nth_error l i = Some x -> upd i (fun _ => x) l = l.
Proof.
  revert i. induction l as [|a l IH]; intros i H; [destruct i; discriminate|]. destruct i as [|i]; cbn [upd nth_error] in *.
  - congruence.
  - f_equal. now apply IH.
Qed.

(** ** The invariant *)
Definition past {A} (w : world A) (g : fgraph A) : Prop :=
  wfg g /\ exists o, In o (wo_graphs w) /\ within g (go_graph o).
Lemma past_grows {A} (w w' : world A) g : grows w w' -> past w g -> past w' g.
Proof.
  intros G [H [o [Ho W]]]. split; [exact H|]. destruct (G o Ho) as [o' [Ho' W']].
  exists o'. split; [exact Ho'|]. eapply within_trans; eassumption.
Qed.

Definition J0 : nat -> Z := fun _ => 0%Z.
Definition compiled_wirings {A} (g : fgraph A) := compile_wirings J0 (gr_vars_to_starts g) (gr_groups g).

Record caches_ok {A} (w : world A) : Prop := {
  co_graphs : forall o, In o (wo_graphs w) -> wfg (go_graph o);
  co_lp : forall k v, In (k, v) (wo_log_potentials_cache w) ->
    exists g0, past w g0 /\ graph_key g0 = k /\ v = compile_log_potentials (gr_groups g0);
  co_wiring : forall k v, In (k, v) (wo_wiring_cache w) ->
    exists g0, past w g0 /\ graph_key g0 = k /\ compiled_wirings g0 = Ok v;
  co_state : forall k v, In (k, v) (wo_fg_state_cache w) ->
    exists g0, past w g0 /\ graph_key g0 = k /\ compile_fg_state J0 g0 = Ok (snd v);
  co_objects : NoDup (map (fun kv => fst (snd kv)) (wo_fg_state_cache w)) /\
    (forall k v, In (k, v) (wo_fg_state_cache w) -> fst v < wo_next w)
}.
(** Keys whose offsets are cached but whose state is not fail to compile. *)
Definition settled {A} (w : world A) (k : cache_key) : Prop :=
  dget key_eqb k (wo_fg_state_cache w) <> None \/
  exists g0 e, past w g0 /\ graph_key g0 = k /\ compile_fg_state J0 g0 = Raise e.
Definition offsets_ok {A} (w : world A) : Prop :=
  forall k u, In (k, u) (wo_offsets_cache w) -> settled w k.
Definition offsets_ok_but {A} (w : world A) (i : nat) (o : gobj A) : Prop :=
  nth_error (wo_graphs w) i = Some o /\
  forall k u, In (k, u) (wo_offsets_cache w) -> settled w k \/
    (k = graph_key (go_graph o) /\ go_offsets o = Some (compute_offsets (gr_groups (go_graph o)))).

Lemma past_content {A} (w : world A) g0 o : ids_ok w -> caches_ok w -> past w g0 -> In o (wo_graphs w) ->
  graph_key g0 = graph_key (go_graph o) ->
  same_content g0 (go_graph o) /\ compile_fg_state J0 g0 = compile_fg_state J0 (go_graph o) /\
  compiled_wirings g0 = compiled_wirings (go_graph o).
Proof.
  intros [I1 I2] C [Hw [o' [Ho' [W1 [W2 W3]]]]] Ho Ek.
  assert (S : same_content g0 (go_graph o)).
  { apply key_content; auto.
    - now apply (co_graphs w C).
    - intros h h' Hh Hh'. apply (I1 o' o); auto.
    - intros v v' Hv Hv'. apply (I2 o' o); congruence. }
  split; [exact S|]. destruct (content_compile g0 (go_graph o) J0 Hw (co_graphs w C o Ho) S) as [E1 E2].
  split; [exact E2|]. unfold compiled_wirings. rewrite E1. destruct S as [_ [_ ->]]. reflexivity.
Qed.

Lemma past_now {A} (w : world A) o : caches_ok w -> In o (wo_graphs w) -> past w (go_graph o).
Proof. intros C Ho. split; [now apply (co_graphs w C)|]. exists o. split; [exact Ho|apply within_refl]. Qed.

(** ** The cached calls *)
Lemma caches_grow {A} (w w' : world A) :
  grows w w' -> (forall o, In o (wo_graphs w') -> wfg (go_graph o)) ->
  wo_log_potentials_cache w' = wo_log_potentials_cache w -> wo_wiring_cache w' = wo_wiring_cache w ->
  wo_fg_state_cache w' = wo_fg_state_cache w -> wo_next w' = wo_next w -> caches_ok w -> caches_ok w'.
Proof.
  intros G Hw E1 E2 E3 E4 C. constructor.
  - exact Hw.
  - rewrite E1. intros k v Hi. destruct (co_lp w C k v Hi) as [g0 [P H]]. exists g0. split; [eapply past_grows; eassumption|exact H].
  - rewrite E2. intros k v Hi. destruct (co_wiring w C k v Hi) as [g0 [P H]]. exists g0. split; [eapply past_grows; eassumption|exact H].
  - rewrite E3. intros k v Hi. destruct (co_state w C k v Hi) as [g0 [P H]]. exists g0. split; [eapply past_grows; eassumption|exact H].
  - rewrite E3, E4. exact (co_objects w C).
Qed.
Lemma settled_grow {A} (w w' : world A) k :
  grows w w' -> wo_fg_state_cache w' = wo_fg_state_cache w -> settled w k -> settled w' k.
Proof.
  intros G E [H|[g0 [e [P H]]]]; [left; now rewrite E|right]. exists g0, e. split; [eapply past_grows; eassumption|exact H].
Qed.

Lemma offsets_ok_now {A} (w : world A) i o : nth_error (wo_graphs w) i = Some o -> offsets_ok w -> offsets_ok_but w i o.
Proof. intros Hi O. split; [exact Hi|]. intros k u Hk. left. eapply O; exact Hk. Qed.

Lemma call_compute_offsets_ok {A} (w : world A) i o :
  caches_ok w -> offsets_ok_but w i o ->
  let w' := call_compute_offsets i o w in
  exists o', go_graph o' = go_graph o /\ caches_ok w' /\ offsets_ok_but w' i o' /\ grows w w' /\
    wo_fg_state_cache w' = wo_fg_state_cache w /\ In (graph_key (go_graph o), tt) (wo_offsets_cache w') /\
    wo_graphs w' = upd i (fun _ => o') (wo_graphs w) /\ wo_next w' = wo_next w.
Proof.
  intros C [Hi O]. unfold call_compute_offsets. cbv zeta.
  destruct (dget key_eqb (graph_key (go_graph o)) (wo_offsets_cache w)) as [u|] eqn:E.
  - exists o. split; [reflexivity|]. split; [exact C|]. split; [split; [exact Hi|exact O]|].
    split; [apply grows_refl|]. split; [reflexivity|]. split; [apply kget_In in E; now destruct u|].
    split; [|reflexivity]. symmetry. now apply upd_same_nth_error.
  - set (o' := {| go_graph := go_graph o; go_offsets := Some (compute_offsets (gr_groups (go_graph o))) |}).
    match goal with |- context [caches_ok ?x] => set (w' := x) end.
    assert (G : grows w w') by (apply (grows_upd w w' i o o' Hi eq_refl), within_refl).
    exists o'. split; [reflexivity|]. split; [|split; [|split; [exact G|split; [reflexivity|split; [now left|split; reflexivity]]]]].
    + apply (caches_grow w w' G); auto. intros p Hp. apply In_upd in Hp. destruct Hp as [->|Hp]; [|now apply (co_graphs w C)].
      exact (co_graphs w C o (nth_error_In _ _ Hi)).
    + split.
      * cbn [w' wo_graphs]. rewrite nth_error_upd_eq, Hi. reflexivity.
      * intros k u Hk. cbn [w' wo_offsets_cache] in Hk. destruct Hk as [Hk|Hk].
        -- injection Hk as <- _. right. split; reflexivity.
        -- destruct (O k u Hk) as [S|[-> _]]; [left; apply (settled_grow w w' k G eq_refl S)|right; split; reflexivity].
Qed.

Lemma call_log_potentials_ok {A} (w : world A) o w' v :
  In o (wo_graphs w) -> ids_ok w -> caches_ok w -> call_log_potentials o w = (w', v) ->
  v = compile_log_potentials (gr_groups (go_graph o)) /\ caches_ok w' /\
  wo_graphs w' = wo_graphs w /\ wo_fg_state_cache w' = wo_fg_state_cache w /\ wo_offsets_cache w' = wo_offsets_cache w.
Proof.
  intros Ho I C H. unfold call_log_potentials in H.
  destruct (dget key_eqb (graph_key (go_graph o)) (wo_log_potentials_cache w)) as [v0|] eqn:E.
  - injection H as <- <-. split; [|auto]. apply kget_In in E. destruct (co_lp w C _ _ E) as [g0 [P [Ek ->]]].
    destruct (past_content w g0 o I C P Ho Ek) as [[_ [_ ->]] _]. reflexivity.
  - injection H as <- <-. split; [reflexivity|]. split; [|auto]. destruct C as [C1 C2 C3 C4 C5]. constructor; auto.
    intros k v Hk. cbn [wo_log_potentials_cache] in Hk. destruct Hk as [Hk|Hk]; [|now apply C2].
    injection Hk as <- <-. exists (go_graph o). split; [|auto]. split; [now apply C1|]. exists o. split; [exact Ho|apply within_refl].
Qed.

Lemma call_wiring_ok {A} junk (w : world A) o w' r :
  In o (wo_graphs w) -> ids_ok w -> caches_ok w -> call_wiring junk o w = (w', r) ->
  r = compiled_wirings (go_graph o) /\ caches_ok w' /\
  wo_graphs w' = wo_graphs w /\ wo_fg_state_cache w' = wo_fg_state_cache w /\ wo_offsets_cache w' = wo_offsets_cache w.
Proof.
  intros Ho I C H. unfold call_wiring in H.
  destruct (dget key_eqb (graph_key (go_graph o)) (wo_wiring_cache w)) as [v0|] eqn:E.
  - injection H as <- <-. split; [|auto]. apply kget_In in E. destruct (co_wiring w C _ _ E) as [g0 [P [Ek Ew]]].
    destruct (past_content w g0 o I C P Ho Ek) as [_ [_ <-]]. now symmetry.
  - assert (Ej : compile_wirings junk (gr_vars_to_starts (go_graph o)) (gr_groups (go_graph o)) = compiled_wirings (go_graph o))
      by apply compile_wirings_junk.
    rewrite Ej in H. destruct (compiled_wirings (go_graph o)) as [v|e] eqn:Ew.
    + injection H as <- <-. split; [reflexivity|]. split; [|auto]. destruct C as [C1 C2 C3 C4 C5]. constructor; auto.
      intros k v' Hk. cbn [wo_wiring_cache] in Hk. destruct Hk as [Hk|Hk]; [|now apply C3].
      injection Hk as <- <-. exists (go_graph o). split; [|auto]. split; [now apply C1|]. exists o. split; [exact Ho|apply within_refl].
    + injection H as <- <-. auto.
Qed.

Lemma compile_split {A} (g : fgraph A) : compile_fg_state J0 g =
  (if gr_is_list g then w <- compiled_wirings g ;; Ok (mk_fg_state g (compute_offsets (gr_groups g)) (compile_log_potentials (gr_groups g)) w)
   else Raise AssertionError).
Proof. unfold compile_fg_state, guard. cbv zeta. destruct (gr_is_list g); reflexivity. Qed.

Lemma same_graphs_grows {A} (w w' : world A) : wo_graphs w' = wo_graphs w -> grows w w'.
Proof. intros E o Ho. exists o. rewrite E. split; [exact Ho|apply within_refl]. Qed.

Lemma call_log_potentials_graph {A} (w : world A) o o' : go_graph o' = go_graph o ->
  call_log_potentials o w = call_log_potentials o' w.
Proof. intros E. unfold call_log_potentials. now rewrite E. Qed.
Lemma call_wiring_graph {A} junk (w : world A) o o' : go_graph o' = go_graph o ->
  call_wiring junk o w = call_wiring junk o' w.
Proof. intros E. unfold call_wiring. now rewrite E. Qed.
Lemma ids_same {A} (w w' : world A) : wo_graphs w' = wo_graphs w -> ids_ok w -> ids_ok w'.
Proof. unfold ids_ok. intros ->. auto. Qed.
Lemma In_upd_within {A} (w w' : world A) i o o' : nth_error (wo_graphs w) i = Some o -> go_graph o' = go_graph o ->
  wo_graphs w' = upd i (fun _ => o') (wo_graphs w) -> grows w' w.
Proof.
  intros Hi Eg E p Hp. rewrite E in Hp. apply In_upd in Hp. destruct Hp as [->|Hp].
  - exists o. split; [eapply nth_error_In; exact Hi|]. rewrite Eg. apply within_refl.
  - exists p. split; [exact Hp|apply within_refl].
Qed.

Lemma call_fg_state_ok {A} junk (w : world A) i o w' r :
  ids_ok w -> caches_ok w -> offsets_ok_but w i o -> call_fg_state junk i o w = (w', r) ->
  caches_ok w' /\ offsets_ok w' /\ grows w w' /\
  (forall s, (exists n, r = Ok (n, s)) <-> compile_fg_state J0 (go_graph o) = Ok s).
Proof.
  intros I C OB H. pose proof OB as [Hi O]. pose proof (nth_error_In _ _ Hi) as Ho. unfold call_fg_state in H.
  destruct (dget key_eqb (graph_key (go_graph o)) (wo_fg_state_cache w)) as [so|] eqn:E.
  { injection H as <- <-. pose proof (kget_In _ _ _ E) as Hin. destruct (co_state w C _ _ Hin) as [g0 [P [Ek Es]]].
    destruct (past_content w g0 o I C P Ho Ek) as [_ [E2 _]]. rewrite E2 in Es.
    split; [exact C|]. split; [|split; [apply grows_refl|]].
    - intros k u Hk. destruct (O k u Hk) as [S|[-> _]]; [exact S|]. left. congruence.
    - intros s. split; [intros [n X]; injection X as ->; exact Es|]. intros X. exists (fst so). destruct so; cbn [fst snd] in *. rewrite Es in X. injection X as ->. reflexivity. }
  destruct (call_compute_offsets_ok w i o C OB) as [o1 [Eg [C1 [[Hi1 O1] [G1 [F1 [K1 [U1 _]]]]]]]]. cbv zeta in *.
  set (w1 := call_compute_offsets i o w) in *. clearbody w1.
  assert (I1 : ids_ok w1) by (apply (grows_ids w1 w); [eapply In_upd_within; eassumption|exact I]).
  pose proof (nth_error_In _ _ Hi1) as Ho1.
  rewrite (call_log_potentials_graph w1 o o1 Eg) in H.
  destruct (call_log_potentials o1 w1) as [w2 lps] eqn:E2.
  destruct (call_log_potentials_ok w1 o1 w2 lps Ho1 I1 C1 E2) as [Elp [C2 [Gr2 [F2 Of2]]]].
  assert (I2 : ids_ok w2) by (now apply (ids_same w1)).
  assert (Ho2 : In o1 (wo_graphs w2)) by now rewrite Gr2.
  assert (G2 : grows w w2) by (eapply grows_trans; [exact G1|now apply same_graphs_grows]).
  (* either the attributes are right or the graph does not compile *)
  assert (D : go_offsets o1 = Some (compute_offsets (gr_groups (go_graph o))) \/
              exists e, compile_fg_state J0 (go_graph o) = Raise e).
  { destruct (O1 _ _ K1) as [[S|[g0 [e [P [Ek Er]]]]]|[_ S]].
    - rewrite F1 in S. contradiction.
    - right. exists e. rewrite <- Eg in Ek. destruct (past_content w1 g0 o1 I1 C1 P Ho1 Ek) as [_ [X _]]. rewrite <- Eg. congruence.
    - left. now rewrite <- Eg. }
  assert (Fin : forall w3, caches_ok w3 -> wo_graphs w3 = wo_graphs w2 -> wo_offsets_cache w3 = wo_offsets_cache w2 ->
            wo_fg_state_cache w3 = wo_fg_state_cache w2 -> (exists e, compile_fg_state J0 (go_graph o) = Raise e) ->
            caches_ok w3 /\ offsets_ok w3 /\ grows w w3 /\
            (forall s, (exists n, @Raise (state_obj A) AssertionError = Ok (n, s)) <-> compile_fg_state J0 (go_graph o) = Ok s)).
  { intros w3 C3 Gr3 Of3 F3 [e Er]. assert (G3 : grows w2 w3) by now apply same_graphs_grows.
    split; [exact C3|]. split; [|split; [eapply grows_trans; eassumption|]].
    - intros k u Hk. rewrite Of3, Of2 in Hk. assert (G13 : grows w1 w3) by (apply same_graphs_grows; congruence).
      destruct (O1 k u Hk) as [S|[-> _]].
      + apply (settled_grow w1 w3 k G13); [congruence|exact S].
      + right. exists (go_graph o), e. rewrite Eg. split; [|auto].
        rewrite <- Eg. apply (past_grows w1 w3 _ G13). now apply past_now.
    - intros s. split; [intros [n X]; discriminate|intros X; congruence]. }
  assert (NoOk : forall e s, (exists n, @Raise (state_obj A) e = Ok (n, s)) <-> (exists n, @Raise (state_obj A) AssertionError = Ok (n, s))).
  { intros e s. split; intros [n X]; discriminate. }
  rewrite compile_split in *. destruct (gr_is_list (go_graph o)) eqn:EL; cbn [negb] in H.
  2: { injection H as <- <-. apply Fin; auto. now exists AssertionError. }
  rewrite Gr2, Hi1 in H.
  destruct (go_offsets o1) as [offs|] eqn:EO.
  2: { injection H as <- <-. destruct D as [D|D]; [discriminate|].
       destruct (Fin w2 C2 eq_refl eq_refl eq_refl D) as [X1 [X2 [X3 X4]]]. split; [exact X1|]. split; [exact X2|]. split; [exact X3|].
       intros s. rewrite NoOk. apply X4. }
  rewrite (call_wiring_graph junk w2 o o1 Eg) in H.
  destruct (call_wiring junk o1 w2) as [w3 rw] eqn:E3.
  destruct (call_wiring_ok junk w2 o1 w3 rw Ho2 I2 C2 E3) as [Erw [C3 [Gr3 [F3 Of3]]]]. rewrite Eg in Erw.
  rewrite <- Erw in *. destruct rw as [wi|e]; cbn [bind] in *.
  2: { injection H as <- <-. destruct (Fin w3 C3 Gr3 Of3 F3 (ex_intro _ e eq_refl)) as [X1 [X2 [X3 X4]]].
       split; [exact X1|]. split; [exact X2|]. split; [exact X3|]. intros s. rewrite NoOk. apply X4. }
  destruct D as [D|[e D]]; [|discriminate]. injection D as ->.
  unfold add_state in H. injection H as <- <-. rewrite Elp, Eg.
  set (s0 := mk_fg_state (go_graph o) (compute_offsets (gr_groups (go_graph o))) (compile_log_potentials (gr_groups (go_graph o))) wi).
  match goal with |- caches_ok ?x /\ _ => set (w4 := x) end.
  assert (G4 : grows w3 w4) by now apply same_graphs_grows.
  assert (G14 : grows w1 w4) by (apply same_graphs_grows; cbn [w4 wo_graphs]; congruence).
  split; [|split; [|split]].
  - destruct C3 as [D1 D2 D3 D4 [D5 D6]]. constructor; cbn [w4 wo_graphs wo_log_potentials_cache wo_wiring_cache wo_fg_state_cache wo_next].
    + exact D1.
    + intros k v Hk. destruct (D2 k v Hk) as [g0 [P X]]. exists g0. split; [exact (past_grows w3 w4 g0 G4 P)|exact X].
    + intros k v Hk. destruct (D3 k v Hk) as [g0 [P X]]. exists g0. split; [exact (past_grows w3 w4 g0 G4 P)|exact X].
    + intros k v [Hk|Hk].
      * injection Hk as <- <-. exists (go_graph o1). split; [apply (past_grows w1 w4 _ G14); now apply past_now|].
        split; [now rewrite Eg|]. rewrite compile_split, Eg, EL, <- Erw. reflexivity.
      * destruct (D4 k v Hk) as [g0 [P X]]. exists g0. split; [exact (past_grows w3 w4 g0 G4 P)|exact X].
    + split.
      * cbn [map fst snd]. constructor; [|exact D5]. intros Hin. apply in_map_iff in Hin. destruct Hin as [[k v] [X Hk]].
        cbn [fst snd] in X. specialize (D6 k v Hk). lia.
      * intros k v [Hk|Hk]; [injection Hk as <- <-; cbn; lia|]. specialize (D6 k v Hk). lia.
  - intros k u Hk. cbn [w4 wo_offsets_cache] in Hk. rewrite Of3, Of2 in Hk.
    destruct (key_eqb k (graph_key (go_graph o))) eqn:Ek.
    + apply key_eqb_eq in Ek. subst k. left. cbn [w4 wo_fg_state_cache]. rewrite kget_cons_eq. discriminate.
    + assert (Hne : k <> graph_key (go_graph o)) by (intros X; apply key_eqb_eq in X; congruence).
      destruct (O1 k u Hk) as [[S|[g0 [e [P X]]]]|[X _]].
      * left. cbn [w4 wo_fg_state_cache]. rewrite kget_cons_neq by exact Hne. congruence.
      * right. exists g0, e. split; [exact (past_grows w1 w4 g0 G14 P)|exact X].
      * rewrite Eg in X. contradiction.
  - exact (grows_trans w w1 w4 G1 G14).
  - intros s. split; [intros [n X]; injection X as _ <-; reflexivity|intros X; injection X as <-; now eexists].
Qed.

(** ** Graphs of a world *)
Definition graphs {A} (w : world A) : list (fgraph A) := map go_graph (wo_graphs w).
Lemma map_upd_same {X Y} (f : X -> Y) i x y l : nth_error l i = Some x -> f y = f x ->
  map f (upd i (fun _ => y) l) = map f l.
Proof.
  revert i. induction l as [|a l IH]; intros i H E; [destruct i; discriminate|]. destruct i as [|i]; cbn [upd nth_error map] in *.
  - congruence.
  - f_equal. now apply IH.
Qed.
Lemma map_upd_f {X Y} (f : X -> Y) (k : Y -> Y) i x y l : nth_error l i = Some x -> f y = k (f x) ->
  map f (upd i (fun _ => y) l) = upd i k (map f l).
Proof.
  revert i. induction l as [|a l IH]; intros i H E; [destruct i; discriminate|]. destruct i as [|i]; cbn [upd nth_error map] in *.
  - congruence.
  - f_equal. now apply IH.
Qed.
Lemma upd_none {X} i (f : X -> X) l : nth_error l i = None -> upd i f l = l.
Proof.
  revert i. induction l as [|a l IH]; intros i H; destruct i as [|i]; cbn [upd nth_error] in *; try reflexivity; [discriminate|].
  f_equal. now apply IH.
Qed.
Lemma graphs_compute_offsets {A} (w : world A) i o : nth_error (wo_graphs w) i = Some o ->
  graphs (call_compute_offsets i o w) = graphs w /\
  exists o', nth_error (wo_graphs (call_compute_offsets i o w)) i = Some o' /\ go_graph o' = go_graph o.
Proof.
  intros H. unfold call_compute_offsets, graphs. destruct (dget _ _ (wo_offsets_cache w)).
  - split; [reflexivity|now exists o].
  - cbn [wo_graphs]. split; [now apply map_upd_same with (x := o)|]. rewrite nth_error_upd_eq, H. eexists. split; reflexivity.
Qed.
Lemma graphs_log_potentials {A} (w : world A) o : wo_graphs (fst (call_log_potentials o w)) = wo_graphs w.
Proof. unfold call_log_potentials. now destruct (dget _ _ _). Qed.
Lemma graphs_wiring {A} junk (w : world A) o : wo_graphs (fst (call_wiring junk o w)) = wo_graphs w.
Proof. unfold call_wiring. destruct (dget _ _ _); [reflexivity|]. now destruct (compile_wirings _ _ _). Qed.
Lemma graphs_fg_state {A} junk (w : world A) i o : nth_error (wo_graphs w) i = Some o ->
  graphs (fst (call_fg_state junk i o w)) = graphs w.
Proof.
  intros H. unfold call_fg_state. destruct (dget _ _ (wo_fg_state_cache w)); [reflexivity|].
  destruct (graphs_compute_offsets w i o H) as [E _].
  pose proof (graphs_log_potentials (call_compute_offsets i o w) o) as E2.
  destruct (call_log_potentials o (call_compute_offsets i o w)) as [w2 lps]. cbn [fst] in E2.
  assert (E3 : graphs w2 = graphs w) by (unfold graphs in *; congruence).
  destruct (negb _); [exact E3|]. destruct (nth_error (wo_graphs w2) i) as [o2|]; [|exact E3].
  destruct (go_offsets o2); [|exact E3].
  pose proof (graphs_wiring junk w2 o) as E4. destruct (call_wiring junk o w2) as [w3 [wi|e]]; cbn [fst] in *;
    unfold graphs, add_state in *; cbn [fst wo_graphs]; congruence.
Qed.
Lemma graphs_of_step {A} (w : world A) op : graphs (fst (step w op)) = graphs_step (graphs w) op.
Proof.
  destruct op as [arg|i a|i junk|i junk|i junk|i|i]; cbn [step graphs_step].
  - unfold graphs. cbn [fst wo_graphs]. now rewrite map_app.
  - destruct (nth_error (wo_graphs w) i) as [o|] eqn:E.
    + destruct (add_factors a (go_graph o)) as [g' r] eqn:Ea. cbn [fst]. unfold graphs, set_graph. cbn [wo_graphs].
      apply map_upd_f with (x := o); [exact E|]. cbn [go_graph]. now rewrite Ea.
    + cbn [fst]. symmetry. apply upd_none. unfold graphs. rewrite nth_error_map, E. reflexivity.
  - destruct (nth_error (wo_graphs w) i) as [o|] eqn:E; [|reflexivity].
    pose proof (graphs_fg_state junk w i o E) as G. destruct (call_fg_state junk i o w). exact G.
  - destruct (nth_error (wo_graphs w) i) as [o|] eqn:E; [|reflexivity].
    destruct (graphs_compute_offsets w i o E) as [G1 [o' [Ho' _]]]. cbv zeta. rewrite Ho'.
    pose proof (graphs_fg_state junk _ i o' Ho') as G. destruct (call_fg_state junk i o' _). cbn [fst] in *. congruence.
  - destruct (nth_error (wo_graphs w) i) as [o|] eqn:E; [|reflexivity].
    pose proof (graphs_wiring junk w o) as G. destruct (call_wiring junk o w). cbn [fst] in *. unfold graphs. congruence.
  - destruct (nth_error (wo_graphs w) i) as [o|] eqn:E; [|reflexivity].
    pose proof (graphs_log_potentials w o) as G. destruct (call_log_potentials o w). cbn [fst] in *. unfold graphs. congruence.
  - destruct (nth_error (wo_graphs w) i) as [o|] eqn:E; [|reflexivity]. now apply graphs_compute_offsets.
Qed.

Lemma run_fst_cons {A} (w : world A) o ops : fst (run w (o :: ops)) = fst (run (fst (step w o)) ops).
Proof. cbn [run]. destruct (step w o) as [w1 x]. cbn [fst]. destruct (run w1 ops) as [w2 xs]. reflexivity. Qed.
Lemma run_fst_app {A} ops (w : world A) ops' : fst (run w (ops ++ ops')) = fst (run (fst (run w ops)) ops').
Proof.
  revert w. induction ops as [|o ops IH]; intros w; [reflexivity|].
  rewrite <- app_comm_cons, !run_fst_cons. apply IH.
Qed.
Lemma graphs_run {A} ops (w : world A) : graphs (fst (run w ops)) = fold_left graphs_step ops (graphs w).
Proof.
  revert w. induction ops as [|o ops IH]; intros w; [reflexivity|].
  rewrite run_fst_cons, IH, graphs_of_step. reflexivity.
Qed.
Lemma graphs_world_after {A} (ops : list (op A)) : graphs (world_after ops) = graphs_after ops.
Proof. exact (graphs_run ops world0). Qed.
Lemma world_after_snoc {A} (ops : list (op A)) o : world_after (ops ++ [o]) = fst (step (world_after ops) o).
Proof. unfold world_after. rewrite run_fst_app, run_fst_cons. reflexivity. Qed.

Lemma grows_of_graphs {A} (w w' : world A) :
  (forall g, In g (graphs w) -> exists g', In g' (graphs w') /\ within g g') -> grows w w'.
Proof.
  intros H o Ho. destruct (H (go_graph o) (in_map _ _ _ Ho)) as [g' [Hg W]].
  apply in_map_iff in Hg. destruct Hg as [o' [<- Ho']]. now exists o'.
Qed.
Lemma In_upd_f {X} i (f : X -> X) l y : In y l -> In y (upd i f l) \/ In (f y) (upd i f l).
Proof.
  revert i. induction l as [|a l IH]; intros i H; [destruct H|]. destruct i as [|i]; cbn [upd].
  - destruct H as [<-|H]; [right; now left|left; now right].
  - destruct H as [<-|H]; [left; now left|]. destruct (IH i H); [left; now right|right; now right].
Qed.
Lemma grows_step {A} (w : world A) op : grows w (fst (step w op)).
Proof.
  apply grows_of_graphs. rewrite graphs_of_step. intros g Hg.
  destruct op as [arg|i a|i junk|i junk|i junk|i|i]; cbn [graphs_step]; try (exists g; split; [exact Hg|apply within_refl]).
  - exists g. split; [apply in_or_app; now left|apply within_refl].
  - destruct (In_upd_f i (fun g => fst (add_factors a g)) _ _ Hg) as [H|H].
    + exists g. split; [exact H|apply within_refl].
    + exists (fst (add_factors a g)). split; [exact H|apply within_add].
Qed.

(** ** The invariant along histories *)
Definition world_ok {A} (w : world A) : Prop := caches_ok w /\ offsets_ok w.
Lemma world_ok_0 {A} : world_ok (@world0 A).
Proof.
  split.
  - constructor; cbn; try (intros; contradiction). split; [constructor|intros; contradiction].
  - intros k u [].
Qed.
Lemma world_ok_grow {A} (w w' : world A) :
  grows w w' -> (forall o, In o (wo_graphs w') -> wfg (go_graph o)) ->
  wo_log_potentials_cache w' = wo_log_potentials_cache w -> wo_wiring_cache w' = wo_wiring_cache w ->
  wo_fg_state_cache w' = wo_fg_state_cache w -> wo_next w' = wo_next w ->
  wo_offsets_cache w' = wo_offsets_cache w -> world_ok w -> world_ok w'.
Proof.
  intros G Hw E1 E2 E3 E4 E5 [C O]. split; [exact (caches_grow w w' G Hw E1 E2 E3 E4 C)|].
  intros k u Hk. rewrite E5 in Hk. apply (settled_grow w w' k G E3). eapply O; exact Hk.
Qed.
Lemma offsets_ok_same {A} (w w' : world A) : wo_graphs w' = wo_graphs w -> wo_fg_state_cache w' = wo_fg_state_cache w ->
  wo_offsets_cache w' = wo_offsets_cache w -> offsets_ok w -> offsets_ok w'.
Proof.
  intros E1 E2 E3 O k u Hk. rewrite E3 in Hk. apply (settled_grow w w' k); [now apply same_graphs_grows|exact E2|]. eapply O; exact Hk.
Qed.
Lemma world_ok_step {A} (w : world A) op : (forall i, op <> OComputeOffsets i) -> ids_ok w -> world_ok w -> world_ok (fst (step w op)).
Proof.
  intros Hop I W. pose proof (grows_step w op) as G. pose proof W as [C O].
  destruct op as [arg|i a|i junk|i junk|i junk|i|i]; cbn [step] in *.
  - apply (world_ok_grow w _ G); auto. cbn [fst wo_graphs]. intros o Ho. apply in_app_or in Ho. destruct Ho as [Ho|[<-|[]]].
    + now apply (co_graphs w C).
    + apply wfg_new.
  - destruct (nth_error (wo_graphs w) i) as [o|] eqn:E; [|exact W].
    destruct (add_factors a (go_graph o)) as [g' r] eqn:Ea. cbn [fst] in *. apply (world_ok_grow w _ G); auto.
    unfold set_graph. cbn [wo_graphs]. intros p Hp. apply In_upd in Hp. destruct Hp as [->|Hp]; [|now apply (co_graphs w C)].
    cbn [go_graph]. replace g' with (fst (add_factors a (go_graph o))) by now rewrite Ea.
    apply wfg_add. exact (co_graphs w C o (nth_error_In _ _ E)).
  - destruct (nth_error (wo_graphs w) i) as [o|] eqn:E; [|exact W].
    destruct (call_fg_state junk i o w) as [w' r] eqn:Ec.
    destruct (call_fg_state_ok junk w i o w' r I C (offsets_ok_now w i o E O) Ec) as [C' [O' _]]. now split.
  - destruct (nth_error (wo_graphs w) i) as [o|] eqn:E; [|exact W].
    destruct (call_compute_offsets_ok w i o C (offsets_ok_now w i o E O)) as [o' [Eg [C1 [OB [G1 [F1 [K1 [U1 _]]]]]]]]. cbv zeta in *.
    assert (I1 : ids_ok (call_compute_offsets i o w)) by (apply (grows_ids _ w); [eapply In_upd_within; eassumption|exact I]).
    pose proof (proj1 OB) as Hn. rewrite Hn in *.
    destruct (call_fg_state junk i o' (call_compute_offsets i o w)) as [w' r] eqn:Ec.
    destruct (call_fg_state_ok junk _ i o' w' r I1 C1 OB Ec) as [C' [O' _]]. now split.
  - destruct (nth_error (wo_graphs w) i) as [o|] eqn:E; [|exact W].
    destruct (call_wiring junk o w) as [w' r] eqn:Ec.
    destruct (call_wiring_ok junk w o w' r (nth_error_In _ _ E) I C Ec) as [_ [C' [E1 [E2 E3]]]].
    split; [exact C'|now apply (offsets_ok_same w)].
  - destruct (nth_error (wo_graphs w) i) as [o|] eqn:E; [|exact W].
    destruct (call_log_potentials o w) as [w' r] eqn:Ec.
    destruct (call_log_potentials_ok w o w' r (nth_error_In _ _ E) I C Ec) as [_ [C' [E1 [E2 E3]]]].
    split; [exact C'|now apply (offsets_ok_same w)].
  - now destruct (Hop i).
Qed.
Lemma world_ok_after {A} (ops : list (op A)) : no_direct_offsets ops -> ids_ok (world_after ops) -> world_ok (world_after ops).
Proof.
  induction ops as [|o ops IH] using rev_ind; intros H I; [apply world_ok_0|].
  rewrite world_after_snoc in *.
  assert (I' : ids_ok (world_after ops)) by (apply (grows_ids _ _ (grows_step _ o)), I).
  apply world_ok_step; [|exact I'|].
  - intros i ->. apply (H i). apply in_or_app. right. now left.
  - apply IH; [|exact I']. intros i Hi. apply (H i). apply in_or_app. now left.
Qed.

Lemma after_nth {A} (ops : list (op A)) i g : nth_error (graphs_after ops) i = Some g ->
  exists o, nth_error (wo_graphs (world_after ops)) i = Some o /\ go_graph o = g.
Proof.
  rewrite <- graphs_world_after. unfold graphs. rewrite nth_error_map.
  destruct (nth_error (wo_graphs (world_after ops)) i) as [o|]; [|discriminate]. intros H. injection H as <-. now exists o.
Qed.

Lemma C19_lemma {A} (ops : list (op A)) i g junk junk' :
  no_direct_offsets ops -> distinct_ids (graphs_after ops) -> nth_error (graphs_after ops) i = Some g ->
  let w := world_after ops in
  (forall s, (exists n, snd (step w (OFgState i junk)) = Ok (RState (n, s))) <-> compile_fg_state junk' g = Ok s) /\
  (forall s, (exists n, snd (step w (OBpState i junk)) = Ok (RState (n, s))) <-> compile_fg_state junk' g = Ok s) /\
  (forall v, snd (step w (OWiring i junk)) = Ok (RWiring v) <-> compile_wirings junk' (gr_vars_to_starts g) (gr_groups g) = Ok v) /\
  snd (step w (OLogPotentials i)) = Ok (RLogPotentials (compile_log_potentials (gr_groups g))).
Proof.
  intros Hd Hids Hg. cbv zeta. destruct (after_nth ops i g Hg) as [o [E <-]].
  assert (I : ids_ok (world_after ops)) by (apply distinct_ids_ok; fold (graphs (world_after ops)); now rewrite graphs_world_after).
  destruct (world_ok_after ops Hd I) as [C O]. set (w := world_after ops) in *. clearbody w.
  rewrite (compile_fg_state_junk junk' J0 (go_graph o)). cbn [step]. rewrite E. split; [|split; [|split]].
  - destruct (call_fg_state junk i o w) as [w' r] eqn:Ec.
    destruct (call_fg_state_ok junk w i o w' r I C (offsets_ok_now w i o E O) Ec) as [_ [_ [_ X]]].
    intros s. rewrite <- X. cbn [snd]. destruct r as [so|e]; cbn [bind]; split; intros [n Y]; try discriminate; exists n; injection Y as ->; reflexivity.
  - destruct (call_compute_offsets_ok w i o C (offsets_ok_now w i o E O)) as [o' [Eg [C1 [OB [G1 [F1 [K1 [U1 _]]]]]]]]. cbv zeta in *.
    assert (I1 : ids_ok (call_compute_offsets i o w)) by (apply (grows_ids _ w); [eapply In_upd_within; eassumption|exact I]).
    pose proof (proj1 OB) as Hn. rewrite Hn in *.
    destruct (call_fg_state junk i o' (call_compute_offsets i o w)) as [w' r] eqn:Ec.
    destruct (call_fg_state_ok junk _ i o' w' r I1 C1 OB Ec) as [_ [_ [_ X]]]. rewrite Eg in X.
    intros s. rewrite <- X. cbn [snd]. destruct r as [so|e]; cbn [bind]; split; intros [n Y]; try discriminate; exists n; injection Y as ->; reflexivity.
  - destruct (call_wiring junk o w) as [w' r] eqn:Ec.
    destruct (call_wiring_ok junk w o w' r (nth_error_In _ _ E) I C Ec) as [Er _].
    intros v. cbn [snd].
    assert (Ej : compile_wirings junk' (gr_vars_to_starts (go_graph o)) (gr_groups (go_graph o)) = compiled_wirings (go_graph o))
      by apply compile_wirings_junk. rewrite Ej, <- Er.
    destruct r; cbn [bind]; split; intros Y; try discriminate; congruence.
  - destruct (call_log_potentials o w) as [w' r] eqn:Ec.
    destruct (call_log_potentials_ok w o w' r (nth_error_In _ _ E) I C Ec) as [-> _]. reflexivity.
Qed.

(** ** Object identities *)
(** Numbers of state objects are fresh and cached objects stay. *)
Definition objects_ok {A} (w : world A) : Prop :=
  NoDup (map (fun kv => fst (snd kv)) (wo_fg_state_cache w)) /\
  (forall k v, In (k, v) (wo_fg_state_cache w) -> fst v < wo_next w).
Definition keeps {A} (w w' : world A) : Prop :=
  forall k so, dget key_eqb k (wo_fg_state_cache w) = Some so -> dget key_eqb k (wo_fg_state_cache w') = Some so.
Lemma same_cache_compute_offsets {A} (w : world A) i o :
  wo_fg_state_cache (call_compute_offsets i o w) = wo_fg_state_cache w /\ wo_next (call_compute_offsets i o w) = wo_next w.
Proof. unfold call_compute_offsets. now destruct (dget _ _ _). Qed.
Lemma same_cache_log_potentials {A} (w : world A) o :
  wo_fg_state_cache (fst (call_log_potentials o w)) = wo_fg_state_cache w /\ wo_next (fst (call_log_potentials o w)) = wo_next w.
Proof. unfold call_log_potentials. now destruct (dget _ _ _). Qed.
Lemma same_cache_wiring {A} junk (w : world A) o :
  wo_fg_state_cache (fst (call_wiring junk o w)) = wo_fg_state_cache w /\ wo_next (fst (call_wiring junk o w)) = wo_next w.
Proof. unfold call_wiring. destruct (dget _ _ _); [now split|]. now destruct (compile_wirings _ _ _). Qed.
Lemma fg_state_cache_cases {A} junk (w : world A) i o w' r : call_fg_state junk i o w = (w', r) ->
  (exists so, w' = w /\ r = Ok so /\ dget key_eqb (graph_key (go_graph o)) (wo_fg_state_cache w) = Some so) \/
  (exists e, r = Raise e /\ wo_fg_state_cache w' = wo_fg_state_cache w /\ wo_next w' = wo_next w) \/
  (exists s, r = Ok (wo_next w, s) /\ dget key_eqb (graph_key (go_graph o)) (wo_fg_state_cache w) = None /\
     wo_fg_state_cache w' = (graph_key (go_graph o), (wo_next w, s)) :: wo_fg_state_cache w /\ wo_next w' = S (wo_next w)).
Proof.
  unfold call_fg_state. destruct (dget key_eqb (graph_key (go_graph o)) (wo_fg_state_cache w)) as [so|].
  - intros H. injection H as <- <-. left. now exists so.
  - destruct (same_cache_compute_offsets w i o) as [F1 N1]. set (w1 := call_compute_offsets i o w) in *. clearbody w1.
    pose proof (same_cache_log_potentials w1 o) as [F2 N2]. destruct (call_log_potentials o w1) as [w2 lps]. cbn [fst] in *.
    destruct (negb _); [intros H; injection H as <- <-; right; left; eexists; split; [reflexivity|split; congruence]|].
    destruct (nth_error (wo_graphs w2) i) as [o2|]; [|intros H; injection H as <- <-; right; left; eexists; split; [reflexivity|split; congruence]].
    destruct (go_offsets o2); [|intros H; injection H as <- <-; right; left; eexists; split; [reflexivity|split; congruence]].
    pose proof (same_cache_wiring junk w2 o) as [F3 N3]. destruct (call_wiring junk o w2) as [w3 [wi|e]]; cbn [fst] in *;
      unfold add_state; intros H; injection H as <- <-.
    + right. right. eexists. rewrite N3, N2, N1, F3, F2, F1. split; [reflexivity|]. split; [reflexivity|].
      cbn [wo_fg_state_cache wo_next]. split; reflexivity.
    + right. left. eexists. split; [reflexivity|split; congruence].
Qed.
Lemma objects_same {A} (w w' : world A) : wo_fg_state_cache w' = wo_fg_state_cache w -> wo_next w' = wo_next w ->
  (objects_ok w -> objects_ok w') /\ keeps w w'.
Proof. unfold objects_ok, keeps. intros -> ->. auto. Qed.
Lemma objects_fg_state {A} junk (w : world A) i o w' r : call_fg_state junk i o w = (w', r) ->
  (objects_ok w -> objects_ok w') /\ keeps w w' /\
  (forall so, r = Ok so -> dget key_eqb (graph_key (go_graph o)) (wo_fg_state_cache w') = Some so).
Proof.
  intros H. destruct (fg_state_cache_cases junk w i o w' r H) as [[so [-> [-> E]]]|[[e [-> [E1 E2]]]|[s [-> [E [E1 E2]]]]]].
  - split; [auto|]. split; [intros k so'; auto|]. intros so' X. congruence.
  - destruct (objects_same w w' E1 E2) as [X1 X2]. split; [exact X1|]. split; [exact X2|]. discriminate.
  - split; [|split].
    + intros [D1 D2]. unfold objects_ok. rewrite E1, E2. split.
      * cbn [map fst snd]. constructor; [|exact D1]. intros Hin. apply in_map_iff in Hin. destruct Hin as [[k v] [X Hk]].
        cbn [fst snd] in X. specialize (D2 k v Hk). lia.
      * intros k v [Hk|Hk]; [injection Hk as <- <-; cbn; lia|]. specialize (D2 k v Hk). lia.
    + intros k so Hk. rewrite E1. rewrite kget_cons_neq; [exact Hk|]. intros ->. congruence.
    + intros so X. injection X as <-. rewrite E1. apply kget_cons_eq.
Qed.
Lemma objects_step {A} (w : world A) op : (objects_ok w -> objects_ok (fst (step w op))) /\ keeps w (fst (step w op)).
Proof.
  destruct op as [arg|i a|i junk|i junk|i junk|i|i]; cbn [step].
  - now apply objects_same.
  - destruct (nth_error (wo_graphs w) i) as [o|]; [|now apply objects_same].
    destruct (add_factors a (go_graph o)). now apply objects_same.
  - destruct (nth_error (wo_graphs w) i) as [o|]; [|now apply objects_same].
    destruct (call_fg_state junk i o w) as [w' r] eqn:Ec. destruct (objects_fg_state junk w i o w' r Ec) as [X1 [X2 _]]. now split.
  - destruct (nth_error (wo_graphs w) i) as [o|]; [|now apply objects_same]. cbv zeta.
    destruct (same_cache_compute_offsets w i o) as [F1 N1]. destruct (objects_same w _ F1 N1) as [Y1 Y2].
    set (w1 := call_compute_offsets i o w) in *. clearbody w1.
    set (o1 := match nth_error (wo_graphs w1) i with Some g1 => g1 | None => o end). clearbody o1.
    destruct (call_fg_state junk i o1 w1) as [w' r] eqn:Ec. destruct (objects_fg_state junk w1 i o1 w' r Ec) as [X1 [X2 _]].
    split; [auto|]. intros k so Hk. apply X2, Y2, Hk.
  - destruct (nth_error (wo_graphs w) i) as [o|]; [|now apply objects_same].
    destruct (same_cache_wiring junk w o) as [F N]. destruct (call_wiring junk o w). now apply objects_same.
  - destruct (nth_error (wo_graphs w) i) as [o|]; [|now apply objects_same].
    destruct (same_cache_log_potentials w o) as [F N]. destruct (call_log_potentials o w). now apply objects_same.
  - destruct (nth_error (wo_graphs w) i) as [o|]; [|now apply objects_same].
    destruct (same_cache_compute_offsets w i o) as [F N]. now apply objects_same.
Qed.
Lemma objects_run {A} ops (w : world A) : (objects_ok w -> objects_ok (fst (run w ops))) /\ keeps w (fst (run w ops)).
Proof.
  revert w. induction ops as [|o ops IH]; intros w; [split; [auto|intros k so; auto]|].
  rewrite run_fst_cons. destruct (objects_step w o) as [X1 X2]. destruct (IH (fst (step w o))) as [Y1 Y2].
  split; [auto|]. intros k so Hk. apply Y2, X2, Hk.
Qed.

(** Reading the state of graph [i], directly or for its bp_state. *)
Lemma read_state {A} (ops : list (op A)) o i junk so : o = OFgState i junk \/ o = OBpState i junk ->
  snd (step (world_after ops) o) = Ok (RState so) ->
  exists g, nth_error (graphs_after ops) i = Some g /\
    dget key_eqb (graph_key g) (wo_fg_state_cache (world_after (ops ++ [o]))) = Some so /\
    (forall so', dget key_eqb (graph_key g) (wo_fg_state_cache (world_after ops)) = Some so' -> so' = so).
Proof.
  intros Ho H. rewrite world_after_snoc, <- graphs_world_after. unfold graphs. rewrite nth_error_map.
  set (w := world_after ops) in *. clearbody w. destruct Ho as [->| ->]; cbn [step] in *.
  - destruct (nth_error (wo_graphs w) i) as [o|] eqn:E; [|discriminate]. exists (go_graph o). split; [reflexivity|].
    destruct (call_fg_state junk i o w) as [w' r] eqn:Ec. cbn [fst snd] in *.
    assert (Er : r = Ok so) by (destruct r; cbn [bind] in H; [congruence|discriminate]).
    destruct (objects_fg_state junk w i o w' r Ec) as [_ [K X]]. split; [now apply X|].
    intros so' Hs. apply K in Hs. apply X in Er. congruence.
  - destruct (nth_error (wo_graphs w) i) as [o|] eqn:E; [|discriminate]. exists (go_graph o). split; [reflexivity|].
    cbv zeta in *. destruct (graphs_compute_offsets w i o E) as [_ [o' [Ho' Eg]]]. rewrite Ho' in *.
    destruct (same_cache_compute_offsets w i o) as [F1 N1].
    destruct (call_fg_state junk i o' (call_compute_offsets i o w)) as [w' r] eqn:Ec. cbn [fst snd] in *.
    assert (Er : r = Ok so) by (destruct r; cbn [bind] in H; [congruence|discriminate]).
    destruct (objects_fg_state junk _ i o' w' r Ec) as [_ [K X]]. rewrite Eg in X. split; [now apply X|].
    intros so' Hs. rewrite <- F1 in Hs. apply K in Hs. apply X in Er. congruence.
Qed.

Lemma same_objects_key {A} (g g' : fgraph A) : same_objects g g' <-> graph_key g = graph_key g'.
Proof.
  unfold same_objects, graph_key, all_groups. split.
  - intros [-> [-> ->]]. reflexivity.
  - intros H. injection H as H1 H2 H3. auto.
Qed.

Lemma world_after_app {A} (ops ops' : list (op A)) : world_after (ops ++ ops') = fst (run (world_after ops) ops').
Proof. apply run_fst_app. Qed.
Lemma objects_after {A} (ops : list (op A)) : objects_ok (world_after ops).
Proof. unfold world_after. apply (proj1 (objects_run ops world0)). split; [constructor|intros k v []]. Qed.

Lemma object_key {A} (w : world A) k k' n s s' : objects_ok w ->
  In (k, (n, s)) (wo_fg_state_cache w) -> In (k', (n, s')) (wo_fg_state_cache w) -> k = k'.
Proof.
  intros [D _]. induction (wo_fg_state_cache w) as [|[k0 [n0 s0]] l IH]; [intros []|]. cbn [map fst snd] in D.
  inversion D as [|? ? D1 D2]; subst.
  assert (Hn : forall k1 s1, In (k1, (n, s1)) l -> n0 <> n).
  { intros k1 s1 Hin ->. apply D1. apply in_map_iff. exists (k1, (n, s1)). auto. }
  intros [H|H] [H'|H'].
  - congruence.
  - injection H as -> -> ->. destruct (Hn _ _ H' eq_refl).
  - injection H' as -> -> ->. destruct (Hn _ _ H eq_refl).
  - auto.
Qed.

(** Two reads, of any graphs at any times, return the same object exactly when the graphs
    had the same groups. *)
Lemma C44_identity_lemma {A} (ops ops' : list (op A)) i j junk junk' o o' n n' s s' g g' :
  o = OFgState i junk \/ o = OBpState i junk -> o' = OFgState j junk' \/ o' = OBpState j junk' ->
  nth_error (graphs_after ops) i = Some g -> nth_error (graphs_after (ops ++ [o] ++ ops')) j = Some g' ->
  snd (step (world_after ops) o) = Ok (RState (n, s)) ->
  snd (step (world_after (ops ++ [o] ++ ops')) o') = Ok (RState (n', s')) ->
  (n = n' <-> same_objects g g') /\ (n = n' -> s = s').
Proof.
  intros Ho Ho' Hg Hg' H H'.
  destruct (read_state ops o i junk _ Ho H) as [g1 [E1 [K1 _]]].
  destruct (read_state _ o' j junk' _ Ho' H') as [g2 [E2 [K2 K3]]].
  assert (g1 = g) by congruence. assert (g2 = g') by congruence. subst g1 g2.
  rewrite app_assoc in K3.
  assert (P : dget key_eqb (graph_key g) (wo_fg_state_cache (world_after ((ops ++ [o]) ++ ops'))) = Some (n, s)).
  { rewrite world_after_app. apply objects_run. exact K1. }
  assert (P2 : dget key_eqb (graph_key g) (wo_fg_state_cache (world_after ((ops ++ [o] ++ ops') ++ [o']))) = Some (n, s)).
  { rewrite app_assoc, world_after_snoc. apply objects_step. exact P. }
  assert (B : graph_key g = graph_key g' -> (n, s) = (n', s')) by (intros X; rewrite <- X in K3; exact (K3 _ P)).
  assert (F : n = n' -> graph_key g = graph_key g').
  { intros <-. apply (object_key _ _ _ n s s' (objects_after ((ops ++ [o] ++ ops') ++ [o']))); now apply kget_In. }
  rewrite same_objects_key. split; [split; [exact F|]|].
  - intros X. apply B in X. congruence.
  - intros X. apply F in X. apply B in X. congruence.
Qed.

Lemma graphs_after_app {A} (ops ops' : list (op A)) : graphs_after (ops ++ ops') = fold_left graphs_step ops' (graphs_after ops).
Proof. apply fold_left_app. Qed.
Lemma graph_kept {A} (ops : list (op A)) gs i g : no_additions i ops -> nth_error gs i = Some g ->
  nth_error (fold_left graphs_step ops gs) i = Some g.
Proof.
  revert gs. induction ops as [|o ops IH]; intros gs H Hg; [exact Hg|]. cbn [fold_left]. apply IH.
  - intros a Ha. apply (H a). now right.
  - destruct o as [arg|j a| | | | |]; cbn [graphs_step]; try exact Hg.
    + rewrite nth_error_app1; [exact Hg|]. apply nth_error_Some. congruence.
    + rewrite nth_error_upd_neq; [exact Hg|]. intros ->. apply (H a). now left.
Qed.
Lemma C44_stable_lemma {A} (ops ops' : list (op A)) i junk junk' o o' so :
  o = OFgState i junk \/ o = OBpState i junk -> o' = OFgState i junk' \/ o' = OBpState i junk' ->
  snd (step (world_after ops) o) = Ok (RState so) -> no_additions i ops' ->
  snd (step (world_after (ops ++ [o] ++ ops')) o') = Ok (RState so).
Proof.
  intros Ho Ho' H Hna. destruct (read_state ops o i junk _ Ho H) as [g [E1 [K1 _]]].
  assert (P : dget key_eqb (graph_key g) (wo_fg_state_cache (world_after (ops ++ [o] ++ ops'))) = Some so).
  { rewrite app_assoc, world_after_app. apply objects_run. exact K1. }
  assert (G : nth_error (graphs_after (ops ++ [o] ++ ops')) i = Some g).
  { rewrite app_assoc, graphs_after_app. apply graph_kept; [exact Hna|].
    rewrite graphs_after_app. apply graph_kept; [|exact E1]. intros a [X|[]]. destruct Ho; congruence. }
  destruct (after_nth _ i g G) as [ob [Eo Eg]]. set (w := world_after (ops ++ [o] ++ ops')) in *. clearbody w.
  assert (Q : forall w2 o2, wo_fg_state_cache w2 = wo_fg_state_cache w -> go_graph o2 = g -> call_fg_state junk' i o2 w2 = (w2, Ok so)).
  { intros w2 o2 F X. unfold call_fg_state. now rewrite X, F, P. }
  destruct Ho' as [->| ->]; cbn [step]; rewrite Eo.
  - rewrite (Q w ob eq_refl Eg). reflexivity.
  - destruct (graphs_compute_offsets w i ob Eo) as [_ [o2 [Ho2 Eg2]]]. cbv zeta. rewrite Ho2.
    rewrite (Q _ o2); [reflexivity|apply same_cache_compute_offsets|congruence].
Qed.

(** Groups are never removed. *)
Lemma graph_grows {A} (ops : list (op A)) gs i g : nth_error gs i = Some g ->
  exists g', nth_error (fold_left graphs_step ops gs) i = Some g' /\
    length (all_groups (gr_groups g)) <= length (all_groups (gr_groups g')).
Proof.
  revert gs g. induction ops as [|o ops IH]; intros gs g Hg; [exists g; auto|]. cbn [fold_left].
  assert (X : exists g1, nth_error (graphs_step gs o) i = Some g1 /\
                length (all_groups (gr_groups g)) <= length (all_groups (gr_groups g1))).
  { destruct o as [arg|j a| | | | |]; cbn [graphs_step]; try (exists g; split; [exact Hg|lia]).
    - exists g. split; [|lia]. rewrite nth_error_app1; [exact Hg|]. apply nth_error_Some. congruence.
    - destruct (Nat.eq_dec i j) as [<-|Hne].
      + rewrite nth_error_upd_eq, Hg. exists (fst (add_factors a g)). split; [reflexivity|].
        unfold all_groups, pt_values. cbn [concat]. rewrite !app_nil_r, !app_length.
        destruct (C16_keep_lemma a g TEnum) as [m1 X1]. destruct (C16_keep_lemma a g TOr) as [m2 X2]. destruct (C16_keep_lemma a g TAnd) as [m3 X3].
        cbn [pt_get] in *. rewrite X1, X2, X3, !app_length. lia.
      + exists g. split; [|lia]. rewrite nth_error_upd_neq; [exact Hg|congruence]. }
  destruct X as [g1 [H1 L1]]. destruct (IH _ _ H1) as [g2 [H2 L2]]. exists g2. split; [exact H2|lia].
Qed.
Lemma add_group_length {A} h (g : fgraph A) : snd (add_factors (AGroup h) g) = Ok tt ->
  length (all_groups (gr_groups (fst (add_factors (AGroup h) g)))) = S (length (all_groups (gr_groups g))).
Proof.
  cbn [add_factors]. destruct (add_group_cases h g) as [[_ E]|[i [vs [_ [_ [_ E]]]]]]; rewrite E; [|discriminate]. intros _.
  cbn [fst with_groups gr_groups]. unfold all_groups, pt_values. cbn [concat]. rewrite !app_nil_r, !app_length.
  destruct (fg_type h), (gr_groups g); cbn; rewrite ?app_length; cbn; lia.
Qed.
Lemma C44_addition_lemma {A} (ops ops1 ops2 : list (op A)) i h junk junk' o o' n n' s s' :
  o = OFgState i junk \/ o = OBpState i junk -> o' = OFgState i junk' \/ o' = OBpState i junk' ->
  snd (step (world_after ops) o) = Ok (RState (n, s)) ->
  snd (step (world_after (ops ++ [o] ++ ops1)) (OAdd i (AGroup h))) = Ok RUnit ->
  snd (step (world_after (ops ++ [o] ++ ops1 ++ [OAdd i (AGroup h)] ++ ops2)) o') = Ok (RState (n', s')) ->
  n <> n'.
Proof.
  intros Ho Ho' H Ha H'.
  destruct (read_state ops o i junk _ Ho H) as [g [E1 _]].
  destruct (read_state _ o' i junk' _ Ho' H') as [g' [E2 _]].
  pose proof (C44_identity_lemma ops (ops1 ++ [OAdd i (AGroup h)] ++ ops2) i i junk junk' o o' n n' s s' g g' Ho Ho' E1 E2 H H') as [X _].
  intros Hn. apply X in Hn. destruct Hn as [_ [_ Hn]]. apply (f_equal (@length Z)) in Hn. rewrite !map_length in Hn.
  replace (ops ++ [o] ++ ops1 ++ [OAdd i (AGroup h)] ++ ops2) with ((ops ++ [o] ++ ops1) ++ [OAdd i (AGroup h)] ++ ops2) in E2 by (rewrite <- !app_assoc; reflexivity).
  rewrite graphs_after_app in E2.
  destruct (graph_grows ([o] ++ ops1) _ i g E1) as [g1 [G1 L1]]. rewrite <- graphs_after_app in G1.
  cbn [fold_left app graphs_step] in E2.
  assert (G2 : nth_error (upd i (fun g => fst (add_factors (AGroup h) g)) (graphs_after (ops ++ [o] ++ ops1))) i = Some (fst (add_factors (AGroup h) g1)))
    by (rewrite nth_error_upd_eq, G1; reflexivity).
  destruct (graph_grows ops2 _ i _ G2) as [g2 [G3 L2]].
  assert (g2 = g') by (cbn [app] in *; congruence). subst g2.
  rewrite add_group_length in L2; [lia|].
  destruct (after_nth _ i g1 G1) as [ob [Eo <-]]. cbn [step] in Ha. rewrite Eo in Ha.
  destruct (add_factors (AGroup h) (go_graph ob)) as [g3 r]. cbn [snd] in *. destruct r as [[]|e]; [reflexivity|discriminate].
Qed.
