(** * Proofs about the layout of variables in a factor graph (C06). *)
From Verif Require Import FGraph BPState Lists SpecVGroup SpecFGraph LemVGroup.
From Coq Require Import Lia.
Local Open Scope nat_scope.

Lemma var_eqb_eq x y : var_eqb x y = true <-> x = y.
Proof.
  unfold var_eqb. destruct x as [h n], y as [h' n']; simpl. rewrite andb_true_iff, Z.eqb_eq, Nat.eqb_eq.
  split; [intros [-> ->]; reflexivity|intros H; injection H as -> ->; auto].
Qed.
Lemma var_eqb_refl x : var_eqb x x = true.
Proof. now apply var_eqb_eq. Qed.
Lemma var_eqb_neq x y : var_eqb x y = false <-> x <> y.
Proof.
  destruct (var_eqb x y) eqn:E.
  - apply var_eqb_eq in E. split; [discriminate|intros H; contradiction].
  - split; [|reflexivity]. intros _ H. apply var_eqb_eq in H. congruence.
Qed.
Lemma var_eqb_sym x y : var_eqb x y = var_eqb y x.
Proof.
  destruct (var_eqb x y) eqn:E; symmetry.
  - apply var_eqb_eq in E. now apply var_eqb_eq.
  - apply var_eqb_neq in E. apply var_eqb_neq. congruence.
Qed.
Lemma var_eqb_trans x y z : var_eqb x y = true -> var_eqb y z = true -> var_eqb x z = true.
Proof. rewrite !var_eqb_eq. congruence. Qed.

(** ** Distinct variables *)
Lemma NoDup_app_intro {A} (l1 l2 : list A) :
  NoDup l1 -> NoDup l2 -> (forall x, In x l1 -> ~ In x l2) -> NoDup (l1 ++ l2).
Proof.
  induction l1 as [|x l1 IH]; intros H1 H2 H; simpl; [exact H2|].
  inversion H1; subst. constructor.
  - rewrite in_app_iff. intros [Hx|Hx]; [contradiction|]. apply (H x); [now left|exact Hx].
  - apply IH; auto. intros y Hy. apply H. now right.
Qed.

Lemma groups_ok_cons g gs :
  groups_ok (g :: gs) -> constructed g /\ (Z.of_nat (length (vg_variables g)) <= 1000000000)%Z /\
  Forall (fun h => (vg_id g mod 2 ^ 32 <> vg_id h mod 2 ^ 32)%Z) gs /\ groups_ok gs.
Proof.
  intros [H1 [H2 H3]]. inversion H1; inversion H2; inversion H3; subst.
  repeat split; assumption.
Qed.

Lemma groups_ok_wf gs g : groups_ok gs -> In g gs -> wf_group g.
Proof. intros [H _] Hin. rewrite Forall_forall in H. apply constructed_wf. now apply H. Qed.

Lemma groups_ok_In gs g :
  groups_ok gs -> In g gs -> constructed g /\ (Z.of_nat (length (vg_variables g)) <= 1000000000)%Z.
Proof. intros [H [H2 _]] Hin. rewrite Forall_forall in H, H2. auto. Qed.

Lemma all_vars_NoDup_fst gs : groups_ok gs -> NoDup (map fst (all_vars gs)).
Proof.
  unfold all_vars. induction gs as [|g gs IH]; intros H; simpl; [constructor|].
  apply groups_ok_cons in H. destruct H as [Hc [Hs [Hd Hok]]].
  rewrite map_app. destruct (C01_lemma' g Hc Hs) as [_ [Hnd Hdis]].
  apply NoDup_app_intro; [exact Hnd|apply IH; exact Hok|].
  intros h Hh Hh'. apply in_map_iff in Hh. destruct Hh as [x [<- Hx]].
  apply in_map_iff in Hh'. destruct Hh' as [y [Heq Hy]]. apply in_concat in Hy.
  destruct Hy as [l [Hl Hy]]. apply in_map_iff in Hl. destruct Hl as [g' [<- Hg']].
  destruct (groups_ok_In _ _ Hok Hg') as [Hc' Hs'].
  rewrite Forall_forall in Hd. eapply (Hdis g' Hc' Hs' (Hd _ Hg') x y Hx Hy). congruence.
Qed.

Lemma all_vars_NoDup gs : groups_ok gs -> NoDup (all_vars gs).
Proof. intros H. eapply NoDup_map_inv. apply all_vars_NoDup_fst. exact H. Qed.

(** ** The layout *)
(** Where the variables start, by position in [all_vars]. *)
Definition var_start (gs : list vgroup) (k : nat) : nat := off (map snd (all_vars gs)) k.
Definition num_states_total (gs : list vgroup) : nat := list_sum (map snd (all_vars gs)).

Definition layout (vs : list variable) : list (variable * nat) :=
  combine vs (map (off (map snd vs)) (seq 0 (length vs))).

Lemma layout_length vs : length (layout vs) = length vs.
Proof. unfold layout. rewrite combine_length, map_length, seq_length. lia. Qed.

Lemma layout_app vs ws :
  layout (vs ++ ws) = layout vs ++ combine ws (map (fun s => list_sum (map snd vs) + s)
                                                   (map (off (map snd ws)) (seq 0 (length ws)))).
Proof.
  unfold layout. rewrite app_length, seq_app, map_app.
  assert (Hc : forall (X Y : Type) (a b : list X) (c e : list Y), length a = length c ->
            combine (a ++ b) (c ++ e) = combine a c ++ combine b e).
  { clear. induction a as [|x a IH]; intros b [|y c] e H; simpl in *; try lia; [reflexivity|].
    f_equal. apply IH. lia. }
  rewrite Hc by (rewrite map_length, seq_length; reflexivity). f_equal.
  - f_equal. apply map_ext_in. intros i Hi. apply in_seq in Hi. rewrite map_app.
    apply off_app1. rewrite map_length. lia.
  - f_equal. rewrite map_map. simpl. rewrite <- (Nat.add_0_r (length vs)) at 1.
    clear. generalize 0 as b. induction (length ws) as [|n IH]; intros b; simpl; [reflexivity|].
    f_equal.
    + rewrite map_app. rewrite <- (map_length snd vs). now rewrite off_app2.
    + rewrite <- Nat.add_succ_r. apply IH.
Qed.

Lemma dget_layout vs k x :
  NoDup vs -> nth_error vs k = Some x -> dget var_eqb x (layout vs) = Some (off (map snd vs) k).
Proof.
  intros Hnd Hk. assert (Hlt : k < length vs) by (apply nth_error_Some; congruence).
  unfold layout.
  assert (Hgen : forall (h : nat -> nat) (ws : list variable) a j, NoDup ws -> nth_error ws j = Some x ->
            dget var_eqb x (combine ws (map h (seq a (length ws)))) = Some (h (a + j))).
  { clear. intros h ws. induction ws as [|y ws IH]; intros a j Hnd Hj; [destruct j; discriminate|].
    inversion Hnd; subst. destruct j as [|j]; simpl in *.
    - injection Hj as ->. rewrite var_eqb_refl. now rewrite Nat.add_0_r.
    - destruct (var_eqb x y) eqn:E.
      + apply var_eqb_eq in E. subst. exfalso. apply H1. eapply nth_error_In. exact Hj.
      + rewrite (IH (S a) j) by assumption. do 2 f_equal. lia. }
  now rewrite (Hgen _ vs 0 k Hnd Hk).
Qed.

Lemma dget_layout_In vs x s : dget var_eqb x (layout vs) = Some s -> In x vs.
Proof.
  intros H. apply dget_In in H. destruct H as [y [Hin E]]. apply var_eqb_eq in E. subst.
  unfold layout in Hin. eapply in_combine_l. exact Hin.
Qed.

Lemma dget_layout_None vs x : ~ In x vs -> dget var_eqb x (layout vs) = None.
Proof.
  intros H. destruct (dget var_eqb x (layout vs)) eqn:E; [|reflexivity].
  exfalso. apply H. eapply dget_layout_In. exact E.
Qed.

Lemma vars_to_starts_fold gs :
  groups_ok gs ->
  forall pre, NoDup (pre ++ all_vars gs) ->
  fold_left vars_to_starts_step gs (layout pre, list_sum (map snd pre))
  = (layout (pre ++ all_vars gs), list_sum (map snd (pre ++ all_vars gs))).
Proof.
  induction gs as [|g gs IH]; intros Hok pre Hnd.
  - unfold all_vars. simpl. now rewrite app_nil_r.
  - pose proof (groups_ok_cons _ _ Hok) as [Hc [Hs [Hd Hok']]].
    pose proof (constructed_wf _ Hc) as Hw.
    assert (Hav : all_vars (g :: gs) = vg_variables g ++ all_vars gs) by reflexivity.
    rewrite Hav in *. rewrite app_assoc in *.
    cbn [fold_left]. rewrite <- IH; [|exact Hok'|exact Hnd]. f_equal.
    unfold vars_to_starts_step. cbn [fst snd].
    assert (Hsnd : map snd (vg_variables g) = vg_num_states g) by now apply vg_variables_snd.
    f_equal.
    + fold (starts (vg_num_states g)). rewrite dupdate_new.
      * rewrite layout_app. f_equal. f_equal. f_equal. rewrite Hsnd, starts_off.
        now rewrite vg_variables_length.
      * intros x y. apply var_eqb_sym.
      * intros k s Hin. apply dget_layout_None. intros Hpre.
        apply in_combine_l in Hin. rewrite <- app_assoc in Hnd.
        clear - Hnd Hin Hpre. induction pre as [|y pre IH]; [destruct Hpre|].
        inversion Hnd; subst. destruct Hpre as [->|Hpre]; [|auto].
        apply H1. apply in_app_iff. right. apply in_app_iff. now left.
      * assert (Hnd' : NoDup (vg_variables g)).
        { destruct (C01_lemma' g Hc Hs) as [_ [Hn _]]. eapply NoDup_map_inv. exact Hn. }
        revert Hnd'. generalize (map (fun s => list_sum (map snd pre) + s) (starts (vg_num_states g))).
        generalize (vg_variables g). clear.
        induction l as [|x l IH]; intros [|s ss] Hnd; simpl; try constructor.
        -- inversion Hnd; subst. apply Forall_forall. intros [y t] Hin. simpl.
           apply var_eqb_neq. intros ->. apply in_combine_l in Hin. contradiction.
        -- inversion Hnd; subst. now apply IH.
    + rewrite last_cumsum0, map_app, list_sum_app, Hsnd. reflexivity.
Qed.

Lemma FactorGraph_layout {A} arg gs :
  arg_groups arg = gs -> groups_ok gs ->
  gr_variable_groups (@FactorGraph A arg) = gs /\
  gr_vars_to_starts (@FactorGraph A arg) = layout (all_vars gs) /\
  gr_num_var_states (@FactorGraph A arg) = num_states_total gs.
Proof.
  intros Harg Hok. pose proof (vars_to_starts_fold gs Hok [] (all_vars_NoDup gs Hok)) as H.
  change (layout []) with (@nil (variable * nat)) in H. simpl list_sum in H. simpl app in H.
  unfold FactorGraph, num_states_total. destruct arg as [g|l|l]; simpl in Harg; subst; cbn -[fold_left];
    rewrite H; auto.
Qed.

(** add_factors only changes factor groups and variable sets. *)
Lemma record_varsets_frame {A} t vss (g : fgraph A) :
  let g' := fst (record_varsets t vss g) in
  gr_variable_groups g' = gr_variable_groups g /\ gr_vars_to_starts g' = gr_vars_to_starts g /\
  gr_num_var_states g' = gr_num_var_states g /\ gr_is_list g' = gr_is_list g /\
  gr_groups g' = gr_groups g.
Proof.
  revert g; induction vss as [|vs r IH]; intros g; simpl; [auto|].
  destruct (existsb _ _); simpl; [auto|].
  destruct (IH (with_varsets g (pt_set t (pt_get t (gr_varsets g) ++ [vs]) (gr_varsets g))))
    as [H1 [H2 [H3 [H4 H5]]]]. rewrite H1, H2, H3, H4, H5. simpl. auto.
Qed.

Lemma add_group_frame {A} (fg : fgroup A) g :
  let g' := fst (add_group fg g) in
  gr_variable_groups g' = gr_variable_groups g /\ gr_vars_to_starts g' = gr_vars_to_starts g /\
  gr_num_var_states g' = gr_num_var_states g /\ gr_is_list g' = gr_is_list g.
Proof.
  unfold add_group. pose proof (record_varsets_frame (fg_type fg) (fg_vars fg) g) as H.
  destruct (record_varsets (fg_type fg) (fg_vars fg) g) as [g1 [u|e]]; simpl in *; tauto.
Qed.

(** Induction principle for the nested argument type. *)
Section AddArgInd.
  Context {A : Type} (P : add_arg A -> Prop).
  Hypothesis HF : forall id f, P (AFactor id f).
  Hypothesis HG : forall g, P (AGroup g).
  Hypothesis HL : forall l, Forall P l -> P (AList l).
  Hypothesis HO : P AOther.
  Fixpoint add_arg_ind' (a : add_arg A) : P a :=
    match a with
    | AFactor id f => HF id f
    | AGroup g => HG g
    | AList l => HL l ((fix go (l : list (add_arg A)) : Forall P l :=
                          match l with
                          | [] => Forall_nil _
                          | x :: r => Forall_cons _ (add_arg_ind' x) (go r)
                          end) l)
    | AOther => HO
    end.
End AddArgInd.

(** The list case as a separate function. *)
Fixpoint add_list {A} (l : list (add_arg A)) (g : fgraph A) : fgraph A * res unit :=
  match l with
  | [] => (g, Ok tt)
  | a :: r => match add_factors a g with
              | (g', Ok _) => add_list r g'
              | (g', Raise e) => (g', Raise e)
              end
  end.
Lemma add_factors_list {A} (l : list (add_arg A)) g : add_factors (AList l) g = add_list l g.
Proof.
  simpl. revert g; induction l as [|a r IH]; intros g; simpl; [reflexivity|].
  destruct (add_factors a g) as [g' [u|e]]; [apply IH|reflexivity].
Qed.

(** A property of graphs preserved by adding one group is preserved by add_factors. *)
Lemma add_factors_inv {A} (P : fgraph A -> Prop) :
  (forall fg g, P g -> P (fst (add_group fg g))) ->
  forall a g, P g -> P (fst (add_factors a g)).
Proof.
  intros H a. induction a as [id f|fg|l HF|] using add_arg_ind'; intros g Hg.
  - apply H. exact Hg.
  - apply H. exact Hg.
  - rewrite add_factors_list. revert g Hg. induction HF as [|a r Ha HF IH]; intros g Hg; simpl; [exact Hg|].
    specialize (Ha g Hg). destruct (add_factors a g) as [g' [u|e]]; simpl in *; [|exact Ha].
    apply IH. exact Ha.
  - exact Hg.
Qed.

Lemma add_factors_frame {A} (a : add_arg A) g :
  let g' := fst (add_factors a g) in
  gr_variable_groups g' = gr_variable_groups g /\ gr_vars_to_starts g' = gr_vars_to_starts g /\
  gr_num_var_states g' = gr_num_var_states g /\ gr_is_list g' = gr_is_list g.
Proof.
  apply (add_factors_inv (fun g' => gr_variable_groups g' = gr_variable_groups g /\
     gr_vars_to_starts g' = gr_vars_to_starts g /\
     gr_num_var_states g' = gr_num_var_states g /\ gr_is_list g' = gr_is_list g)); [|auto].
  intros fg g1 [H1 [H2 [H3 H4]]]. destruct (add_group_frame fg g1) as [E1 [E2 [E3 E4]]].
  simpl in *. rewrite E1, E2, E3, E4. auto.
Qed.

Lemma reachable_layout {A} gs (g : fgraph A) :
  groups_ok gs -> reachable gs g ->
  gr_variable_groups g = gs /\ gr_vars_to_starts g = layout (all_vars gs) /\
  gr_num_var_states g = num_states_total gs.
Proof.
  intros Hok H. induction H as [arg Harg|g a H IH].
  - now apply FactorGraph_layout.
  - destruct (add_factors_frame a g) as [H1 [H2 [H3 H4]]]. simpl in *. rewrite H1, H2, H3. exact IH.
Qed.

Lemma compile_fg_state_layout {A} gs (g : fgraph A) junk st :
  groups_ok gs -> reachable gs g -> compile_fg_state junk g = Ok st ->
  st_variable_groups st = gs /\ st_vars_to_starts st = layout (all_vars gs) /\
  st_num_var_states st = num_states_total gs.
Proof.
  intros Hok Hr Hc. destruct (reachable_layout gs g Hok Hr) as [H1 [H2 H3]].
  unfold compile_fg_state in Hc. destruct (gr_is_list g); simpl in Hc; [|discriminate].
  destruct (compile_wirings _ _ _); simpl in Hc; [|discriminate]. injection Hc as <-. simpl. auto.
Qed.

Lemma C06_compiled_lemma {A} gs (g : fgraph A) junk st :
  groups_ok gs -> reachable gs g -> compile_fg_state junk g = Ok st ->
  st_variable_groups st = gs /\ st_vars_to_starts st = gr_vars_to_starts g /\
  st_num_var_states st = gr_num_var_states g /\
  st_num_var_states st = list_sum (map snd (all_vars gs)).
Proof.
  intros Hok Hr Hc. destruct (compile_fg_state_layout _ _ _ _ Hok Hr Hc) as [H1 [H2 H3]].
  destruct (reachable_layout _ _ Hok Hr) as [_ [E2 E3]]. rewrite E2, E3, H2, H3. auto.
Qed.

Lemma C06_lemma {A} gs (g : fgraph A) :
  groups_ok gs -> reachable gs g ->
  (forall k x, nth_error (all_vars gs) k = Some x ->
     dget var_eqb x (gr_vars_to_starts g) = Some (list_sum (map snd (firstn k (all_vars gs))))) /\
  (forall x s, dget var_eqb x (gr_vars_to_starts g) = Some s ->
     In x (all_vars gs) /\ s + snd x <= gr_num_var_states g) /\
  (forall x y s t, dget var_eqb x (gr_vars_to_starts g) = Some s ->
     dget var_eqb y (gr_vars_to_starts g) = Some t -> x <> y -> s + snd x <= t \/ t + snd y <= s) /\
  (forall p, p < gr_num_var_states g -> exists x s,
     dget var_eqb x (gr_vars_to_starts g) = Some s /\ s <= p < s + snd x).
Proof.
  intros Hok Hr. destruct (reachable_layout gs g Hok Hr) as [_ [-> ->]]. unfold num_states_total.
  pose proof (all_vars_NoDup gs Hok) as Hnd. set (vs := all_vars gs) in *.
  assert (H0 : forall k x, nth_error vs k = Some x -> dget var_eqb x (layout vs) = Some (off (map snd vs) k)).
  { intros k x Hk. now apply dget_layout. }
  assert (Hinv : forall x s, dget var_eqb x (layout vs) = Some s ->
            exists k, k < length vs /\ nth_error vs k = Some x /\ s = off (map snd vs) k
                      /\ nth k (map snd vs) 0 = snd x).
  { intros x s Hs. pose proof (dget_layout_In _ _ _ Hs) as Hin. apply In_nth_error in Hin.
    destruct Hin as [k Hk]. exists k. assert (Hlt : k < length vs) by (apply nth_error_Some; congruence).
    split; [exact Hlt|]. split; [exact Hk|]. rewrite (H0 _ _ Hk) in Hs. split; [congruence|].
    rewrite (nth_map _ _ _ _ (0%Z, 0)) by exact Hlt. now rewrite (nth_error_nth _ _ _ Hk). }
  split; [|split; [|split]].
  - intros k x Hk. rewrite (H0 k x Hk). unfold off. now rewrite firstn_map.
  - intros x s Hs. split; [eapply dget_layout_In; exact Hs|].
    destruct (Hinv _ _ Hs) as [k [Hk [Hx [-> Hn]]]]. rewrite <- Hn.
    rewrite <- off_S by (rewrite map_length; exact Hk). apply off_le_sum.
  - intros x y s t Hx Hy Hne.
    destruct (Hinv _ _ Hx) as [k [Hk [Ex [-> Hn]]]]. destruct (Hinv _ _ Hy) as [j [Hj [Ey [-> Hm]]]].
    rewrite <- Hn, <- Hm. rewrite <- !off_S by (rewrite map_length; assumption).
    destruct (Nat.lt_total k j) as [Hlt|[->|Hlt]].
    + left. apply off_le_mono. lia.
    + congruence.
    + right. apply off_le_mono. lia.
  - intros p Hp. destruct (off_split _ _ Hp) as [k [j [Hk [Hj ->]]]]. rewrite map_length in Hk.
    destruct (nth_error vs k) as [x|] eqn:Ex; [|apply nth_error_None in Ex; lia].
    exists x, (off (map snd vs) k). split; [now apply H0|].
    rewrite (nth_map _ _ _ _ (0%Z, 0)) in Hj by exact Hk. rewrite (nth_error_nth _ _ _ Ex) in Hj. lia.
Qed.
