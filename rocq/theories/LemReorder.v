(** * Proofs about factors with variables and configurations in another order (C55). *)
From Verif Require Import NumPy Lists VGroup FGraph BPState BP SpecVGroup SpecFGraph SpecFactor SpecAdd SpecWiring SpecState SpecBP SpecText SpecBeliefs SpecPerm SpecLocal.
From Verif Require Import LemFactor LemFGraph LemAdd LemWiring LemGraph LemState LemNum LemNorm LemVtoF LemBrute LemLogBP LemText LemRun LemBeliefs LemShift LemPerm LemStable LemLocal.
From Coq Require Import Reals Lra Lia Permutation FinFun.
Local Open Scope nat_scope.

(** ** Permuting parents *)
Lemma perm_below_inv n h : perm_below n h -> exists i, perm_below n i /\ forall j, j < n -> i (h j) = j /\ h (i j) = j.
Proof.
  intros H. set (i := fun j => match find (fun x => h x =? j) (seq 0 n) with Some x => x | None => 0 end).
  assert (E : forall j, j < n -> i j < n /\ h (i j) = j).
  { intros j Hj. unfold i. destruct (find (fun x => h x =? j) (seq 0 n)) as [x|] eqn:F.
    - apply find_some in F. destruct F as [F1 F2]. apply in_seq in F1. apply Nat.eqb_eq in F2. split; [lia|exact F2].
    - exfalso. destruct (perm_below_onto n h H j Hj) as [x [Hx Ex]]. pose proof (find_none _ _ F x ltac:(apply in_seq; lia)) as N. cbv beta in N. rewrite Ex, Nat.eqb_refl in N. discriminate. }
  exists i. split.
  - split; [intros j Hj; now apply E|]. intros j k Hj Hk Ejk. rewrite <- (proj2 (E j Hj)), <- (proj2 (E k Hk)). now rewrite Ejk.
  - intros j Hj. split; [|now apply E]. destruct H as [H1 H2]. apply H2; [apply E; now apply H1|exact Hj|]. apply E. now apply H1.
Qed.
Lemma NoDup_bools k : NoDup (bools k).
Proof.
  induction k as [|k IH]; [repeat constructor; intros []|]. cbn [bools]. induction IH as [|b l Hb Hl IHl]; [constructor|]. cbn [flat_map app].
  assert (N : forall z : Z, ~ In (z :: b) (flat_map (fun b => [0%Z :: b; 1%Z :: b]) l)).
  { intros z Hi. apply in_flat_map in Hi. destruct Hi as [x [Hx [E|[E|[]]]]]; injection E as _ ->; contradiction. }
  constructor; [|constructor; [apply N|exact IHl]]. intros [E|Hi]; [discriminate|now apply (N 0%Z)].
Qed.
Lemma connective_perm t b b' : Permutation b b' -> connective t b = connective t b'.
Proof.
  intros H. assert (E1 : existsb (Z.eqb 1) b = existsb (Z.eqb 1) b') by (induction H; cbn [existsb forallb]; [reflexivity|now rewrite IHPermutation|now destruct (1 =? x)%Z, (1 =? y)%Z|congruence]).
  assert (E2 : forallb (Z.eqb 1) b = forallb (Z.eqb 1) b') by (clear E1; induction H; cbn [existsb forallb]; [reflexivity|now rewrite IHPermutation|now destruct (1 =? x)%Z, (1 =? y)%Z|congruence]).
  unfold connective. now rewrite E1, E2.
Qed.
Lemma pick_perm (b : list Z) i k : length b = k -> perm_below k i -> Permutation (map (fun j => nth (i j) b 0%Z) (seq 0 k)) b.
Proof.
  intros Hl Hi. rewrite <- (map_map i (fun j => nth j b 0%Z)). eapply Permutation_trans; [apply Permutation_map, perm_below_seq; exact Hi|].
  subst k. rewrite <- (list_ext_seq b 0%Z) at 1. apply Permutation_refl.
Qed.
Lemma logical_configs_pick t k h i : perm_below (S k) h -> (forall j, j < S k -> i (h j) = j /\ h (i j) = j) -> perm_below (S k) i -> h k = k ->
  Permutation (logical_configs t k) (map (fun c => map (fun j => nth (i j) c 0%Z) (seq 0 (S k))) (logical_configs t k)).
Proof.
  intros Hh Hi Pi Hk. set (pick := fun c : list Z => map (fun j => nth (i j) c 0%Z) (seq 0 (S k))).
  assert (Ik : i k = k) by (rewrite <- Hk at 1; apply Hi; lia).
  assert (Pi' : perm_below k i).
  { destruct Pi as [P1 P2]. split; [|intros; apply P2; lia]. intros j Hj. assert (i j < S k) by (apply P1; lia). assert (i j <> k); [|lia]. intros E. rewrite <- Ik in E. apply P2 in E; lia. }
  assert (Hlc : forall c, In c (logical_configs t k) -> length c = S k).
  { intros c Hc. unfold logical_configs in Hc. apply in_map_iff in Hc. destruct Hc as [b [<- Hb]]. apply In_bools in Hb. rewrite app_length. cbn. lia. }
  assert (Nd : NoDup (logical_configs t k)).
  { unfold logical_configs. apply NoDup_map_on; [apply NoDup_bools|]. intros x y _ _ E. now apply app_inj_tail in E. }
  apply Permutation_sym, NoDup_Permutation_bis.
  - apply NoDup_map_on; [exact Nd|]. intros x y Hx Hy E. apply (nth_ext _ _ 0%Z 0%Z); [now rewrite !Hlc|]. intros n Hn. rewrite (Hlc x Hx) in Hn.
    assert (Hhn : h n < S k) by (now apply Hh).
    assert (G : forall c, nth (h n) (pick c) 0%Z = nth n c 0%Z).
    { intros c. unfold pick. rewrite (nth_map _ _ _ _ 0) by (now rewrite seq_length). rewrite seq_nth by exact Hhn. cbn [plus]. now rewrite (proj1 (Hi n Hn)). }
    rewrite <- (G x), <- (G y). now rewrite E.
  - now rewrite map_length.
  - intros c Hc. apply in_map_iff in Hc. destruct Hc as [x [<- Hx]]. unfold logical_configs in *. apply in_map_iff in Hx. destruct Hx as [b [<- Hb]].
    apply In_bools in Hb. destruct Hb as [Lb Hb]. set (b' := map (fun j => nth (i j) b 0%Z) (seq 0 k)).
    assert (Pb : Permutation b' b) by (now apply pick_perm). apply in_map_iff. exists b'. split.
    + unfold pick. rewrite seq_S, map_app. cbn [map plus]. rewrite Ik. f_equal.
      * apply map_ext_in. intros j Hj. apply in_seq in Hj. rewrite app_nth1; [reflexivity|]. rewrite Lb. apply Pi'. lia.
      * rewrite (connective_perm t _ _ Pb). f_equal. rewrite app_nth2 by lia. rewrite Lb, Nat.sub_diag. reflexivity.
    + apply In_bools. split; [unfold b'; now rewrite map_length, seq_length|]. intros z Hz. apply Hb. eapply Permutation_in; [exact Pb|exact Hz].
Qed.
Lemma Forall2_map_r {X Y} (P : X -> Y -> Prop) (f : X -> Y) l : (forall x, In x l -> P x (f x)) -> Forall2 P l (map f l).
Proof. induction l as [|x l IH]; intros H; constructor; [apply H; now left|]. apply IH. intros y Hy. apply H. now right. Qed.
Lemma logical_rows {A} (z : A) t vs : rows (logical_sf z t vs) = map (fun c => (c, z)) (logical_configs t (length vs - 1)).
Proof. unfold rows, logical_sf. cbn [sf_configs sf_pots]. generalize (logical_configs t (length vs - 1)). intros l. induction l as [|x l IH]; [reflexivity|]. cbn [map combine]. now rewrite IH. Qed.
Lemma reordered_parents {A} (z : A) t ps ps' ch : Permutation ps ps' -> reordered (logical_sf z t (ps ++ [ch])) (logical_sf z t (ps' ++ [ch])).
Proof.
  intros H. pose proof (Permutation_length H) as Hl. set (k := length ps). apply Permutation_sym in H.
  apply (Permutation_nth _ _ (0%Z, 0)) in H. destruct H as [_ [h0 [H1 [H2 H3]]]]. rewrite <- Hl in H1, H2, H3. fold k in H1, H2, H3.
  set (h := fun u => if u <? k then h0 u else u).
  assert (Hlt : forall u, u < k -> h u = h0 u) by (intros u Hu; unfold h; now rewrite (proj2 (Nat.ltb_lt u k) Hu)).
  assert (Hk : h k = k) by (unfold h; now rewrite Nat.ltb_irrefl).
  assert (Ph : perm_below (S k) h).
  { split.
    - intros i Hi. destruct (Nat.eq_dec i k) as [->|E]; [rewrite Hk; lia|]. rewrite Hlt by lia. specialize (H1 i ltac:(lia)). lia.
    - intros i j Hi Hj E. destruct (Nat.eq_dec i k) as [->|Ei], (Nat.eq_dec j k) as [->|Ej]; [reflexivity| | |].
      + rewrite Hk, Hlt in E by lia. specialize (H1 j ltac:(lia)). lia.
      + rewrite Hk, Hlt in E by lia. specialize (H1 i ltac:(lia)). lia.
      + rewrite !Hlt in E by lia. apply H2; lia. }
  destruct (perm_below_inv (S k) h Ph) as [i [Pi Hi]].
  assert (Lv : length (ps ++ [ch]) = S k) by (rewrite app_length; cbn; lia). assert (Lv' : length (ps' ++ [ch]) = S k) by (rewrite app_length; cbn; lia).
  exists h, (map (fun a : list Z * A => (map (fun j => nth (i j) (fst a) 0%Z) (seq 0 (S k)), snd a)) (rows (logical_sf z t (ps ++ [ch])))). cbn [logical_sf sf_vars]. rewrite Lv, Lv'.
  split; [exact Ph|]. split; [reflexivity|]. split; [|split].
  - intros u Hu. destruct (Nat.eq_dec u k) as [->|E].
    + rewrite Hk. rewrite !app_nth2 by lia. now rewrite <- Hl.
    + rewrite Hlt by lia. rewrite !app_nth1; [|lia|rewrite <- Hl; apply H1; lia]. symmetry. apply H3. lia.
  - rewrite !logical_rows, Lv, Lv', map_map. cbn [fst snd]. rewrite <- (map_map (fun c => map (fun j => nth (i j) c 0%Z) (seq 0 (S k))) (fun c => (c, z))).
    apply Permutation_map. replace (S k - 1) with k by lia. now apply (logical_configs_pick t k h i).
  - apply Forall2_map_r. intros a _. cbn [fst snd]. split; [reflexivity|]. intros u Hu.
    rewrite (nth_map _ _ _ _ 0) by (rewrite seq_length; now apply Ph). rewrite seq_nth by (now apply Ph). cbn [plus]. now rewrite (proj1 (Hi u Hu)).
Qed.
Lemma reordered_refl {A} (F : sfactor A) : reordered F F.
Proof.
  exists (fun u => u), (rows F). split; [apply perm_below_id|]. split; [reflexivity|]. split; [auto|]. split; [apply Permutation_refl|]. apply Forall2_same. intros a _. auto.
Qed.

(** ** Tables of potentials *)
Lemma combine_nths {X Y} (l : list X) (l' : list Y) d e : length l' = length l -> combine l l' = map (fun k => (nth k l d, nth k l' e)) (seq 0 (length l)).
Proof.
  revert l'. induction l as [|x l IH]; intros [|y l'] H; try discriminate; [reflexivity|]. cbn [combine length seq map nth]. f_equal.
  rewrite <- seq_shift, map_map. apply IH. now injection H.
Qed.
Lemma graph_pots_length (G : per_type (list (fgroup R))) F : wf_groups G -> In F (graph_factors 0%R G) -> length (sf_pots F) = length (sf_configs F).
Proof.
  intros Hwf HF. rewrite (graph_fs G) in HF. apply in_app_or in HF. destruct HF as [HF|HF]; [now apply (enum_pots_length G)|].
  apply in_app_or in HF. destruct HF as [HF|HF]; apply in_map_iff in HF; destruct HF as [vs [<- _]]; cbn [logical_sf sf_pots sf_configs]; apply map_length.
Qed.
Lemma own_table (G : per_type (list (fgroup R))) f : wf_groups G -> f < length (graph_factors 0%R G) ->
  table (graph_factors 0%R G) (graph_pots G (concat (pt_values (compile_log_potentials G)))) f = rows (factor_at (graph_factors 0%R G) f).
Proof.
  intros Hwf Hf. unfold table, rows. rewrite (combine_nths _ _ [] 0%R) by (apply (graph_pots_length G _ Hwf); now apply nth_In).
  apply map_ext_in. intros k Hk. apply in_seq in Hk. f_equal. apply own_pots; [exact Hwf|exact Hf|lia].
Qed.
Lemma finite_choice {Y} (y0 : Y) (Q : nat -> Y -> Prop) n : (forall i, i < n -> exists y, Q i y) -> exists h, forall i, i < n -> Q i (h i).
Proof.
  induction n as [|n IH]; intros H; [exists (fun _ => y0); intros; lia|]. destruct IH as [h Hh]; [intros; apply H; lia|]. destruct (H n) as [y Hy]; [lia|].
  exists (fun i => if i =? n then y else h i). intros i Hi. destruct (Nat.eqb_spec i n) as [->|E]; [exact Hy|]. apply Hh. lia.
Qed.

Lemma In_edges {A} (fs : list (sfactor A)) x : In x (sf_edges fs) -> exists f u, f < length fs /\ u < arity fs f /\ var_at fs f u = x.
Proof.
  unfold sf_edges. rewrite in_concat. intros [l [Hl Hx]]. apply in_map_iff in Hl. destruct Hl as [F [<- HF]].
  destruct (In_nth fs F (SF [] [] []) HF) as [f [Hf E]]. destruct (In_nth (sf_vars F) x (0%Z, 0) Hx) as [u [Hu Eu]].
  exists f, u. unfold arity, var_at, factor_at. rewrite E. auto.
Qed.
Lemma reordered_vars {A} (F F' : sfactor A) : reordered F F' -> Permutation (sf_vars F') (sf_vars F).
Proof.
  intros [h [l [[H1 H2] [H3 [H4 _]]]]]. apply (Permutation_nth _ _ (0%Z, 0)). split; [now symmetry|]. exists h. rewrite H3.
  split; [exact H1|]. split; [exact H2|]. intros u Hu. symmetry. now apply H4.
Qed.
Lemma reordered_edges {A} (fs l : list (sfactor A)) : Forall2 reordered fs l -> Permutation (sf_edges l) (sf_edges fs).
Proof. induction 1 as [|F F' fs l H H2 IH]; [apply Permutation_refl|]. unfold sf_edges in *. cbn [map concat]. apply Permutation_app; [now apply reordered_vars|exact IH]. Qed.

(** ** Graphs of reordered factors *)
Section Reorder.
  Context (fs fs' : list (sfactor R)) (p : nat -> nat) (w : nat -> nat -> nat).
  Context (pots pots' : nat -> nat -> R).
  Hypothesis Hlen : length fs' = length fs.
  Hypothesis Hp : perm_below (length fs) p.
  Hypothesis Hw : forall f, f < length fs -> perm_below (arity fs f) (w f) /\ arity fs' (p f) = arity fs f /\
    (forall u, u < arity fs f -> var_at fs' (p f) (w f u) = var_at fs f u) /\
    same_factor fs fs' p w (fun _ s => s) pots pots' f.
  Hypothesis Hcfg : configs_ok fs.
  Notation rid := (fun x : variable => x).
  Notation tid := (fun (_ : variable) (s : nat) => s).

  Lemma reorder_embeds : embeds fs fs' p w rid tid.
  Proof.
    split; [|intros x _; split; [reflexivity|apply perm_below_id]]. intros f Hf. destruct (Hw f Hf) as [H1 [H2 [H3 _]]].
    split; [rewrite Hlen; now apply Hp|]. auto.
  Qed.
  Lemma reorder_onto f' : f' < length fs' -> exists f, f < length fs /\ p f = f'.
  Proof. intros H. apply (perm_below_onto (length fs) p Hp). lia. Qed.
  Lemma reorder_slot f' u' : f' < length fs' -> u' < arity fs' f' -> exists f u, f < length fs /\ u < arity fs f /\ p f = f' /\ w f u = u'.
  Proof.
    intros Hf Hu. destruct (reorder_onto f' Hf) as [f [H1 <-]]. destruct (Hw f H1) as [H2 [H3 _]]. rewrite H3 in Hu.
    destruct (perm_below_onto _ _ H2 u' Hu) as [u [H4 <-]]. now exists f, u.
  Qed.
  Lemma reorder_slots x : Permutation (map (place p w) (slots_of fs x)) (slots_of fs' x).
  Proof.
    apply NoDup_Permutation.
    - apply NoDup_map_on; [apply NoDup_filter, NoDup_slots|]. intros [f u] [h v] H1 H2 E. apply In_slots_of in H1, H2. unfold place in E. cbn [fst snd] in E. injection E as E1 E2.
      apply (proj2 Hp) in E1; [|apply H1|apply H2]. subst h. apply (proj1 (Hw f (proj1 H1))) in E2; [now subst|apply H1|apply H2].
    - apply NoDup_filter, NoDup_slots.
    - intros [f' u']. rewrite in_map_iff. split.
      + intros [[f u] [E Hi]]. apply In_slots_of in Hi. destruct Hi as [H1 [H2 H3]]. unfold place in E. cbn [fst snd] in E. injection E as <- <-.
        destruct (Hw f H1) as [P1 [P2 [P3 _]]]. apply In_slots_of. split; [rewrite Hlen; now apply Hp|]. rewrite P2, P3 by exact H2. split; [now apply P1|exact H3].
      + intros Hi. apply In_slots_of in Hi. destruct Hi as [H1 [H2 H3]]. destruct (reorder_slot f' u' H1 H2) as [f [u [F1 [F2 [<- <-]]]]].
        exists (f, u). split; [reflexivity|]. apply In_slots_of. destruct (Hw f F1) as [_ [_ [P3 _]]]. rewrite P3 in H3 by exact F2. auto.
  Qed.
  Lemma reorder_edges x : In x (sf_edges fs') -> In x (sf_edges fs).
  Proof.
    intros Hx. apply In_edges in Hx. destruct Hx as [f' [u' [H1 [H2 <-]]]]. destruct (reorder_slot f' u' H1 H2) as [f [u [F1 [F2 [<- <-]]]]].
    destruct (Hw f F1) as [_ [_ [P3 _]]]. rewrite P3 by exact F2. now apply var_in_edges.
  Qed.
  Lemma reorder_moderate ne' ev B P D K : ne' <= length fs' -> moderate fs pots (length fs) ev B P D K -> moderate fs' pots' ne' ev B P D K.
  Proof.
    intros Hne [M1 [M2 [M3 [M4 [M5 M6]]]]]. split; [|split; [|split; [|split; [|split; [|exact M6]]]]].
    - intros x s Hx. apply M1. now apply reorder_edges.
    - intros f' k Hf Hk. destruct (reorder_onto f' ltac:(lia)) as [f [F1 <-]]. destruct (Hw f F1) as [_ [_ [_ [l [P4 P5]]]]].
      assert (Hi : In (nth k (sf_configs (factor_at fs' (p f))) [], pots' (p f) k) (table fs' pots' (p f))) by (unfold table; apply in_map_iff; exists k; split; [reflexivity|apply in_seq; lia]).
      apply (Permutation_in _ P4) in Hi. apply In_nth_error in Hi. destruct Hi as [i Hi].
      assert (Hj : exists b, nth_error (table fs pots f) i = Some b /\ pots' (p f) k = snd b).
      { clear - P5 Hi. revert i Hi. induction P5 as [|b c l l' Hbc H IH]; intros [|i] Hi; try discriminate.
        - injection Hi as ->. exists b. split; [reflexivity|]. exact (proj1 Hbc).
        - now apply IH. }
      destruct Hj as [b [Hb ->]]. apply nth_error_In in Hb. unfold table in Hb. apply in_map_iff in Hb. destruct Hb as [j [<- Hj]]. apply in_seq in Hj. cbn [snd]. apply M2; lia.
    - intros x. rewrite <- (Permutation_length (reorder_slots x)), map_length. apply M3.
    - intros f' Hf. destruct (reorder_onto f' ltac:(lia)) as [f [F1 <-]]. destruct (Hw f F1) as [_ [-> _]]. now apply M4.
    - intros f' u' s Hf Hu Hs E. destruct (reorder_slot f' u' ltac:(lia) Hu) as [f [u [F1 [F2 [<- <-]]]]]. destruct (Hw f F1) as [P1 [P2 [P3 P4]]].
      rewrite (P3 u F2) in Hs. apply (M5 f u s F1 F2 Hs).
      pose proof (same_scores fs fs' p w rid tid reorder_embeds pots pots' Hcfg (fun _ _ _ => 0%R) (fun _ _ _ => 0%R) f u s F1 F2 Hs P4 (fun _ _ _ _ _ => eq_refl)) as HP.
      apply Permutation_length in HP. rewrite !map_length in HP. cbv beta in HP. rewrite E in HP. destruct (choices fs f u s); [reflexivity|discriminate].
  Qed.
End Reorder.

Lemma C55_graphs_lemma vgs (g g' : fgraph R) T c c' eu a a' :
  groups_ok vgs -> reachable vgs g -> reachable vgs g' -> wf_groups (gr_groups g) -> wf_groups (gr_groups g') ->
  let fs := graph_factors 0%R (gr_groups g) in
  let fs' := graph_factors 0%R (gr_groups g') in
  (exists l, Permutation fs' l /\ Forall2 reordered fs l) ->
  fresh_bp g T c -> fresh_bp g' T c' -> bp_init c None None eu = Ok a -> bp_init c' None None eu = Ok a' ->
  forall B P D K d n,
  moderate fs (fun f k => nth k (sf_pots (factor_at fs f)) 0%R) (length fs) (read_ev (gr_vars_to_starts g) (ba_evidence a)) B P D K ->
  (0 <= T)%R -> (0 <= d <= 1)%R -> supported (map snd (sf_edges fs)) ->
  get_beliefs c' (run_bp c' a' n d) = get_beliefs c (run_bp c a n d).
Proof.
  intros Hok Hr Hr' Hwf Hwf' fs fs' [l [HP HF]] Hf Hf' Hi Hi' B P D K d n M HT Hd Hsup.
  pose proof (fresh_fields g T c Hf) as [Hbp _]. pose proof (fresh_fields g' T c' Hf') as [Hbp' _].
  destruct (init_fields g T c eu a Hf Hi) as [Ha [El [Em Ev]]]. destruct (init_fields g' T c' eu a' Hf' Hi') as [Ha' [El' [Em' Ev']]].
  assert (Hst : gr_vars_to_starts g' = gr_vars_to_starts g) by (apply (two_starts vgs g g' Hok Hr Hr')).
  pose proof (two_groups vgs g g' T c c' Hok Hr Hr' Hbp Hbp') as Hgr.
  assert (Hev : ba_evidence a' = ba_evidence a).
  { assert (E2 : st_num_var_states (bs_fg_state (bc_state c')) = st_num_var_states (bs_fg_state (bc_state c)) /\ st_vars_to_starts (bs_fg_state (bc_state c')) = st_vars_to_starts (bs_fg_state (bc_state c))).
    { destruct (ctx_state g T c Hbp) as [junk Hc]. destruct (ctx_state g' T c' Hbp') as [junk' Hc'].
      destruct (compile_fg_state_layout _ _ _ _ Hok Hr Hc) as [_ [-> ->]]. destruct (compile_fg_state_layout _ _ _ _ Hok Hr' Hc') as [_ [-> ->]]. now split. }
    destruct E2 as [E2 E3]. destruct eu as [u|]; rewrite E2 in Ev'; [rewrite (update_evidence_same _ _ _ _ Hgr E3) in Ev'|]; congruence. }
  assert (Hsup' : supported (map snd (sf_edges fs'))).
  { apply supported_perm with (map snd (sf_edges fs)); [|exact Hsup]. apply Permutation_map, Permutation_sym. eapply Permutation_trans; [|apply reordered_edges; exact HF].
    unfold sf_edges. rewrite <- !flat_map_concat_map. now apply Permutation_flat_map. }
  assert (Hll : length fs = length l) by (clear - HF; induction HF as [|F F2 k k2 H H2 IH]; cbn [length]; congruence). apply (Permutation_nth _ _ (SF [] [] [])) in HP. destruct HP as [Hl [p [H1 [H2 H3]]]].
  assert (Hlen : length fs' = length fs) by congruence. rewrite Hlen in H1, H2, H3.
  assert (Hp : perm_below (length fs) p) by (split; [exact H1|exact H2]).
  set (pots := graph_pots (gr_groups g) (ba_log_potentials a)). set (pots' := graph_pots (gr_groups g') (ba_log_potentials a')).
  assert (HR : forall f, f < length fs -> reordered (factor_at fs f) (factor_at fs' (p f))).
  { intros f Hfl. unfold factor_at. rewrite <- (H3 f Hfl). clear - HF Hfl. revert f Hfl. induction HF as [|F F' k k' H H' IH]; intros [|f] Hf; cbn in Hf; try lia; [exact H|]. apply IH. lia. }
  destruct (finite_choice (fun u => u) (fun f h => exists l, perm_below (arity fs f) h /\ arity fs' (p f) = arity fs f /\
    (forall u, u < arity fs f -> var_at fs' (p f) (h u) = var_at fs f u) /\ Permutation (rows (factor_at fs' (p f))) l /\
    Forall2 (fun a b => snd b = snd a /\ forall u, u < arity fs f -> nth (h u) (fst b) 0%Z = nth u (fst a) 0%Z) (rows (factor_at fs f)) l) (length fs)) as [w Hw0].
  { intros f Hfl. destruct (HR f Hfl) as [h [k Hh]]. now exists h, k. }
  assert (Hw : forall f, f < length fs -> perm_below (arity fs f) (w f) /\ arity fs' (p f) = arity fs f /\
    (forall u, u < arity fs f -> var_at fs' (p f) (w f u) = var_at fs f u) /\ same_factor fs fs' p w (fun _ s => s) pots pots' f).
  { intros f Hfl. destruct (Hw0 f Hfl) as [k [W1 [W2 [W3 [W4 W5]]]]]. do 3 (split; [assumption|]). exists k. unfold pots, pots'. rewrite El, El'. unfold fs, fs'. rewrite !own_table; auto.
    - split; [exact W4|]. fold fs. revert W5. generalize (rows (factor_at fs f)). intros rr W5. clear - W5. induction W5 as [|x y k k' [H H'] H2 IH]; constructor; [|exact IH]. split; [exact H|]. intros u Hu. now rewrite H'.
    - change (p f < length fs'). rewrite Hlen. now apply H1. }
  pose proof (reorder_embeds fs fs' p w pots pots' Hlen Hp Hw) as Hemb. pose proof (graph_configs_ok (gr_groups g) Hwf) as Hcfg. fold fs in Hcfg.
  assert (M0 : moderate fs pots (length fs) (read_ev (gr_vars_to_starts g) (ba_evidence a)) B P D K).
  { destruct M as [M1 [M2 M3]]. split; [exact M1|]. split; [|exact M3]. intros f k Hf0 Hk. unfold pots. rewrite El, own_pots by assumption. now apply M2. }
  assert (Hne : forall G : per_type (list (fgroup R)), length (enum_factors G) <= length (graph_factors 0%R G)) by (intros G; unfold graph_factors; rewrite app_length; lia).
  assert (M' : moderate fs' pots' (length (enum_factors (gr_groups g'))) (read_ev (gr_vars_to_starts g') (ba_evidence a')) B P D K).
  { rewrite Hst, Hev. apply (reorder_moderate fs fs' p w pots pots' Hlen Hp Hw Hcfg); [apply Hne|exact M0]. }
  assert (SV : forall x, same_var fs fs' p w (fun x => x) (fun _ s => s) (read_ev (gr_vars_to_starts g) (ba_evidence a)) (read_ev (gr_vars_to_starts g') (ba_evidence a')) x).
  { intros x. split; [now apply (reorder_slots fs fs' p w pots pots')|]. intros s _. now rewrite Hst, Hev. }
  assert (SW : forall f u, f < length fs -> u < arity fs f -> same_within fs fs' p w (fun x => x) (fun _ s => s) pots pots'
    (read_ev (gr_vars_to_starts g) (ba_evidence a)) (read_ev (gr_vars_to_starts g') (ba_evidence a')) (read_msgs fs (ba_ftov_msgs a)) (read_msgs fs' (ba_ftov_msgs a')) n f u).
  { apply all_same; [intros f Hfl; now apply Hw|intros x _; apply SV|]. intros f u _ _ s _. rewrite Em, Em'. now rewrite !read_zeros. }
  pose proof (C54_messages_lemma vgs vgs g g' T c c' Hok Hr Hwf Hbp Hok Hr' Hwf' Hbp' a a' Ha Ha' d B P B P D K D K HT Hd
    (moderate_fewer _ _ _ _ _ _ _ _ _ (Hne (gr_groups g)) M0) M' Hsup Hsup' ltac:(rewrite Em; apply zeros_above) ltac:(rewrite Em'; apply zeros_above) p w (fun x => x) (fun _ s => s) Hemb n) as SM.
  pose proof (LemStable.run_arrays vgs g T c Hok Hr Hwf Hbp d a n Ha) as Hra. pose proof (LemStable.run_arrays vgs g' T c' Hok Hr' Hwf' Hbp' d a' n Ha') as Hra'.
  unfold get_beliefs. rewrite Hgr. f_equal.
  rewrite (flat_rows vgs g T c Hok Hr Hwf Hbp _ Hra), (flat_rows vgs g' T c' Hok Hr' Hwf' Hbp' _ Hra'). f_equal. apply map_ext. intros x.
  unfold vrow. apply map_ext_in. intros s Hs. apply in_seq in Hs. f_equal.
  apply (same_belief fs fs' p w (fun x => x) (fun _ s => s) (read_ev (gr_vars_to_starts g) (ba_evidence (run_bp c a n d))) (read_ev (gr_vars_to_starts g') (ba_evidence (run_bp c' a' n d)))); [exact (SV x)| |lia].
  intros f u Hfu. apply In_slots_of in Hfu. destruct Hfu as [F1 [F2 _]]. apply SM; [exact F1|exact F2|now apply SW].
Qed.
Lemma combine_map_l {X Y Z} (h : X -> Y) (l : list X) (l' : list Z) : combine (map h l) l' = map (fun a => (h (fst a), snd a)) (combine l l').
Proof. revert l'. induction l as [|x l IH]; intros [|z l']; try reflexivity. cbn [map combine fst snd]. now rewrite IH. Qed.
Lemma reordered_columns {A} vs cfgs cfgs' (pots pots' : list A) i : perm_below (length vs) i -> Permutation (combine cfgs pots) (combine cfgs' pots') ->
  reordered (SF vs cfgs pots)
    (SF (map (fun j => nth (i j) vs (0%Z, 0)) (seq 0 (length vs))) (map (fun c => map (fun j => nth (i j) c 0%Z) (seq 0 (length vs))) cfgs') pots').
Proof.
  intros Hi HP. destruct (perm_below_inv _ i Hi) as [h [Ph Hh]]. exists h. unfold rows. cbn [sf_vars sf_configs sf_pots]. rewrite combine_map_l.
  exists (map (fun a : list Z * A => (map (fun j => nth (i j) (fst a) 0%Z) (seq 0 (length vs)), snd a)) (combine cfgs pots)).
  split; [exact Ph|]. split; [now rewrite map_length, seq_length|]. split; [|split].
  - intros u Hu. assert (Hl : h u < length vs) by (now apply Ph). rewrite (nth_map _ _ _ _ 0) by (now rewrite seq_length). rewrite seq_nth by exact Hl. cbn [plus]. now rewrite (proj2 (Hh u Hu)).
  - apply Permutation_map, Permutation_sym. exact HP.
  - apply Forall2_map_r. intros a _. cbn [fst snd]. split; [reflexivity|]. intros u Hu. assert (Hl : h u < length vs) by (now apply Ph).
    rewrite (nth_map _ _ _ _ 0) by (now rewrite seq_length). rewrite seq_nth by exact Hl. cbn [plus]. now rewrite (proj2 (Hh u Hu)).
Qed.
Lemma C55_order_lemma arg l l' (g g' : fgraph R) T c c' eu a a' :
  groups_ok (arg_groups arg) -> (forall fg, In fg (l ++ l') -> valid_group fg /\ fg_vars fg <> []) ->
  built_from arg l g -> built_from arg l' g' ->
  (exists k, Permutation (flat_map (factors_of 0%R) l') k /\ Forall2 reordered (flat_map (factors_of 0%R) l) k) ->
  fresh_bp g T c -> fresh_bp g' T c' -> bp_init c None None eu = Ok a -> bp_init c' None None eu = Ok a' ->
  let fs := graph_factors 0%R (gr_groups g) in
  forall B P D K d n,
  moderate fs (fun f k => nth k (sf_pots (factor_at fs f)) 0%R) (length fs) (read_ev (gr_vars_to_starts g) (ba_evidence a)) B P D K ->
  (0 <= T)%R -> (0 <= d <= 1)%R -> supported (map snd (sf_edges fs)) ->
  get_beliefs c' (run_bp c' a' n d) = get_beliefs c (run_bp c a n d).
Proof.
  intros Hok Hv Hb Hb' [k [HP HF]].
  assert (Hr : forall l (g : fgraph R), built_from arg l g -> reachable (arg_groups arg) g) by (intros k0 g0 H0; apply (built_groups _ _ _ H0)).
  refine (C55_graphs_lemma (arg_groups arg) g g' T c c' eu a a' Hok (Hr _ _ Hb) (Hr _ _ Hb') _ _ _).
  - apply (built_wf arg l); [exact Hb|]. intros fg Hi. apply Hv, in_or_app. now left.
  - apply (built_wf arg l'); [exact Hb'|]. intros fg Hi. apply Hv, in_or_app. now right.
  - destruct (Permutation_Forall2 (Permutation_sym (built_factors 0%R arg l g Hb)) HF) as [k2 [P2 F2]]. exists k2. split; [|exact F2].
    eapply Permutation_trans; [apply (built_factors 0%R arg l' g' Hb')|]. eapply Permutation_trans; [exact HP|exact P2].
Qed.
