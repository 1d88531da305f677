(** * Proofs about the order and the grouping of factors (C43). *)
From Verif Require Import NumPy Lists VGroup FGraph BPState BP SpecVGroup SpecFGraph SpecFactor SpecAdd SpecWiring SpecState SpecBP SpecText SpecBeliefs SpecPerm.
From Verif Require Import LemFactor LemFGraph LemAdd LemWiring LemGraph LemState LemNum LemNorm LemVtoF LemLogBP LemText LemRun LemBeliefs LemShift.
From Coq Require Import Reals Lra Lia Permutation FinFun.
Local Open Scope nat_scope.

(** ** Textbook messages *)
Lemma NoDup_slots {A} (fs : list (sfactor A)) : NoDup (slots fs).
Proof. apply (NoDup_map_inv (edge_no fs)). rewrite edges_slots. apply seq_NoDup. Qed.
Lemma slot_eqb_eq a b : slot_eqb a b = true <-> a = b.
Proof.
  destruct a as [f u], b as [g w]. unfold slot_eqb. cbn [fst snd]. rewrite Bool.andb_true_iff, !Nat.eqb_eq. split; [intros [-> ->]; reflexivity|]. intros E. now injection E.
Qed.
Lemma filter_perm {X} (q : X -> bool) l l' : Permutation l l' -> Permutation (filter q l) (filter q l').
Proof.
  induction 1 as [|x l l' H IH|x y l|l l2 l3 H1 IH1 H2 IH2]; [constructor| | |now apply Permutation_trans with (filter q l2)]; cbn [filter].
  - destruct (q x); [now constructor|exact IH].
  - destruct (q x), (q y); try apply Permutation_refl. apply perm_swap.
Qed.
Lemma rmaxs_perm l l' : Permutation l l' -> rmaxs l = rmaxs l'.
Proof.
  intros H. destruct l as [|x l].
  - apply Permutation_nil in H. now subst.
  - apply rmaxs_same; [|discriminate]. intros y. split; apply Permutation_in; [exact H|now apply Permutation_sym].
Qed.

Lemma NoDup_map_on {X Y} (h : X -> Y) l : NoDup l -> (forall x y, In x l -> In y l -> h x = h y -> x = y) -> NoDup (map h l).
Proof.
  intros Hnd. induction Hnd as [|a l Ha Hnd IH]; intros H; [constructor|]. cbn [map]. constructor; [|apply IH; intros x y Hx Hy; apply H; now right].
  intros Hi. apply in_map_iff in Hi. destruct Hi as [b [E Hb]]. apply Ha. rewrite <- (H b a); [exact Hb|now right|now left|exact E].
Qed.

(** Messages of a factor in terms of its table. *)
Definition row_score (v : nat -> nat -> R) (k u : nat) (r : list Z * R) : R :=
  (snd r + rsum (map (fun w => v w (Z.to_nat (nth w (fst r) 0%Z))) (filter (fun w => negb (w =? u)) (seq 0 k))))%R.
Definition row_at (u s : nat) (r : list Z * R) : bool := Z.to_nat (nth u (fst r) 0%Z) =? s.
Lemma scores_table {A} (fs : list (sfactor A)) pots v f u s :
  map (fun c => score_but fs pots v f c u) (choices fs f u s)
  = map (row_score (v f) (arity fs f) u) (filter (row_at u s) (table fs pots f)).
Proof. unfold choices, table. rewrite LemNum.filter_map, map_map. reflexivity. Qed.

Section Match.
  Context {A : Type} (fs fs' : list (sfactor A)) (pots pots' : nat -> nat -> R) (p : nat -> nat).
  Hypothesis Hm : matching fs fs' pots pots' p.
  Hypothesis Hcfg : configs_ok fs.

  Lemma match_lt f : f < length fs -> p f < length fs'.
  Proof. intros Hf. destruct Hm as [-> [H _]]. now apply H. Qed.
  Lemma match_arity f : f < length fs -> arity fs' (p f) = arity fs f.
  Proof. intros Hf. unfold arity. destruct Hm as [_ [_ [_ H]]]. now rewrite (proj1 (H f Hf)). Qed.
  Lemma match_var f u : f < length fs -> var_at fs' (p f) u = var_at fs f u.
  Proof. intros Hf. unfold var_at. destruct Hm as [_ [_ [_ H]]]. now rewrite (proj1 (H f Hf)). Qed.
  Lemma match_onto f' : f' < length fs' -> exists f, f < length fs /\ p f = f'.
  Proof.
    intros Hf. destruct Hm as [Hl [H1 [H2 _]]]. rewrite Hl in Hf.
    assert (Hs : bSurjective (length fs) p) by (apply bInjective_bSurjective; [exact H1|exact H2]).
    exact (Hs f' Hf).
  Qed.
  Definition move (fu : nat * nat) : nat * nat := (p (fst fu), snd fu).
  Lemma match_slots x : Permutation (map move (slots_of fs x)) (slots_of fs' x).
  Proof.
    apply NoDup_Permutation.
    - apply NoDup_map_on; [apply NoDup_filter, NoDup_slots|]. intros [f u] [g w] Hf Hg E. apply In_slots_of in Hf, Hg.
      unfold move in E. cbn [fst snd] in E. injection E as E1 ->. destruct Hm as [_ [_ [Inj _]]]. apply Inj in E1; [now subst|apply Hf|apply Hg].
    - apply NoDup_filter, NoDup_slots.
    - intros [f' u]. rewrite in_map_iff. split.
      + intros [[f w] [E Hi]]. unfold move in E. cbn [fst snd] in E. injection E as <- ->. apply In_slots_of in Hi. destruct Hi as [H1 [H2 H3]].
        apply In_slots_of. rewrite match_arity, match_var by exact H1. split; [now apply match_lt|]. now split.
      + intros Hi. apply In_slots_of in Hi. destruct Hi as [H1 [H2 H3]]. destruct (match_onto f' H1) as [f [Hf <-]].
        exists (f, u). split; [reflexivity|]. apply In_slots_of. rewrite match_arity in H2 by exact Hf. rewrite match_var in H3 by exact Hf. auto.
  Qed.
  Lemma match_sum m m' x s l l' : carried fs p m m' -> s < snd x -> (forall fu, In fu l -> In fu (slots_of fs x)) -> Permutation (map move l) l' ->
    rsum (map (fun fu => m' (fst fu) (snd fu) s) l') = rsum (map (fun fu => m (fst fu) (snd fu) s) l).
  Proof.
    intros Hc Hs Hi Hp. rewrite <- (rsum_perm _ _ (Permutation_map _ Hp)), map_map. apply rsum_ext. intros [f u] Hf.
    apply Hi, In_slots_of in Hf. destruct Hf as [H1 [H2 H3]]. cbn [fst snd move]. apply Hc; [exact H1|exact H2|now rewrite H3].
  Qed.
  Lemma match_belief ev m m' x s : carried fs p m m' -> s < snd x -> text_belief fs' ev m' x s = text_belief fs ev m x s.
  Proof. intros Hc Hs. unfold text_belief. f_equal. apply (match_sum m m' x); auto. apply match_slots. Qed.
  Lemma match_var_to_fac ev ev' m m' : (forall x s, In x (sf_edges fs) -> s < snd x -> ev' x s = ev x s) ->
    carried fs p m m' -> carried fs p (var_to_fac fs ev m) (var_to_fac fs' ev' m').
  Proof.
    intros He Hc f u s Hf Hu Hs. unfold var_to_fac. rewrite match_var by exact Hf. rewrite He by (auto; now apply var_in_edges).
    f_equal. apply (match_sum m m' (var_at fs f u)); [exact Hc|exact Hs| |].
    - intros fu Hi. now apply filter_In in Hi.
    - apply Permutation_trans with (filter (fun fu => negb (slot_eqb fu (p f, u))) (map move (slots_of fs (var_at fs f u)))); [|apply filter_perm, match_slots].
      rewrite LemNum.filter_map. erewrite (filter_ext_in _ _ (slots_of fs _)); [apply Permutation_refl|].
      intros [g w] Hi. apply In_slots_of in Hi. destruct Hi as [Hg _]. f_equal. unfold slot_eqb, move. cbn [fst snd]. f_equal.
      destruct (Nat.eqb_spec g f) as [Ee|Hne]; destruct (Nat.eqb_spec (p g) (p f)) as [E|E]; try reflexivity.
      + subst g. now contradiction E.
      + destruct Hm as [_ [_ [Inj _]]]. apply Inj in E; [contradiction|exact Hg|exact Hf].
  Qed.
  Lemma match_scores v v' f u s : carried fs p v v' -> f < length fs -> u < arity fs f ->
    Permutation (map (fun c => score_but fs' pots' v' (p f) c u) (choices fs' (p f) u s)) (map (fun c => score_but fs pots v f c u) (choices fs f u s)).
  Proof.
    intros Hc Hf Hu. rewrite scores_table. eapply Permutation_trans.
    - apply Permutation_map, filter_perm. destruct Hm as [_ [_ [_ H]]]. apply (proj2 (H f Hf)).
    - unfold choices, table. rewrite LemNum.filter_map, map_map.
      erewrite map_ext_in; [apply Permutation_refl|]. intros c Hi. apply filter_In in Hi. destruct Hi as [Hi _]. apply in_seq in Hi.
      unfold row_score, score_but. cbn [fst snd]. f_equal. rewrite match_arity by exact Hf. apply rsum_ext. intros w Hw. apply filter_In in Hw. destruct Hw as [Hw _]. apply in_seq in Hw.
      apply Hc; [exact Hf|lia|]. apply (config_ok fs); auto; lia.
  Qed.
  Lemma match_fac_to_var T v v' : carried fs p v v' -> carried fs p (fac_to_var fs pots T v) (fac_to_var fs' pots' T v').
  Proof.
    intros Hc f u s Hf Hu Hs. unfold fac_to_var. pose proof (match_scores v v' f u s Hc Hf Hu) as Hp.
    destruct (Req_EM_T T 0) as [HT|HT]; unfold fac_to_var_max, fac_to_var_soft.
    - now apply rmaxs_perm.
    - f_equal. f_equal. apply (Permutation_map (fun x => exp (x / T))) in Hp. rewrite !map_map in Hp. now apply rsum_perm.
  Qed.
  Lemma match_damp d m m' n n' : carried fs p m m' -> carried fs p n n' -> carried fs p (damp d m n) (damp d m' n').
  Proof. intros H1 H2 f u s Hf Hu Hs. unfold damp. now rewrite H1, H2. Qed.
  Lemma match_normal m m' : carried fs p m m' -> carried fs p (normal fs m) (normal fs' m').
  Proof.
    intros Hc f u s Hf Hu Hs. unfold normal. rewrite match_var by exact Hf. f_equal. rewrite Hc by assumption. apply f_equal, f_equal.
    apply map_ext_in. intros t Ht. apply in_seq in Ht. apply Hc; auto; lia.
  Qed.
  Lemma match_text_bp T d ev ev' m m' n : (forall x s, In x (sf_edges fs) -> s < snd x -> ev' x s = ev x s) ->
    carried fs p m m' -> carried fs p (text_bp fs pots T d ev m n) (text_bp fs' pots' T d ev' m' n).
  Proof.
    intros He Hc. induction n as [|n IH]; [now apply match_normal|].
    change (carried fs p (text_step fs pots T d ev (text_bp fs pots T d ev m n)) (text_step fs' pots' T d ev' (text_bp fs' pots' T d ev' m' n))).
    unfold text_step. apply match_normal, match_damp; [exact IH|]. now apply match_fac_to_var, match_var_to_fac.
  Qed.
End Match.

(** ** Two graphs over the same variables *)
Lemma match_edges {A} (fs fs' : list (sfactor A)) pots pots' p : matching fs fs' pots pots' p -> Permutation (sf_edges fs') (sf_edges fs).
Proof.
  intros Hm. unfold sf_edges. rewrite <- !flat_map_concat_map.
  assert (E : map sf_vars fs = map (fun f => sf_vars (factor_at fs f)) (seq 0 (length fs))).
  { rewrite (list_ext_seq fs (SF [] [] [])) at 1. now rewrite map_map. }
  assert (E' : map sf_vars fs' = map (fun f => sf_vars (factor_at fs' f)) (seq 0 (length fs'))).
  { rewrite (list_ext_seq fs' (SF [] [] [])) at 1. now rewrite map_map. }
  rewrite !flat_map_concat_map, E, E'.
  assert (Hp : Permutation (map p (seq 0 (length fs))) (seq 0 (length fs'))).
  { destruct Hm as [Hl [H1 [H2 H3]]]. apply NoDup_Permutation.
    - apply NoDup_map_on; [apply seq_NoDup|]. intros x y Hx Hy. apply in_seq in Hx, Hy. apply H2; lia.
    - apply seq_NoDup.
    - intros f'. rewrite in_map_iff. split.
      + intros [f [<- Hf]]. apply in_seq in Hf. apply in_seq. rewrite Hl. specialize (H1 f). lia.
      + intros Hf. apply in_seq in Hf. destruct (match_onto fs fs' pots pots' p) with (f' := f') as [f [Hf' <-]]; [now split|lia|]. exists f. split; [reflexivity|]. apply in_seq. lia. }
  rewrite <- !flat_map_concat_map. apply Permutation_sym. eapply Permutation_trans; [|apply Permutation_flat_map; exact Hp].
  rewrite !flat_map_concat_map, map_map. erewrite map_ext_in; [apply Permutation_refl|]. intros f Hf. apply in_seq in Hf.
  destruct Hm as [_ [_ [_ H3]]]. symmetry. apply H3. lia.
Qed.
Lemma nat_max_le l b : (forall n, In n l -> n <= b) -> nat_max l <= b.
Proof. intros H. destruct l as [|x l]; [apply Nat.le_0_l|]. apply H, nat_max_In. discriminate. Qed.
Lemma supported_perm l l' : Permutation l l' -> supported l -> supported l'.
Proof.
  intros Hp [H1 H2]. split; [|intros n Hn; apply H2; now apply Permutation_in with l'; [apply Permutation_sym|]].
  assert (E1 : list_sum l' = list_sum l) by (clear - Hp; induction Hp; unfold list_sum in *; cbn [fold_right] in *; lia).
  assert (E2 : nat_max l' <= nat_max l) by (apply nat_max_le; intros n Hn; apply nat_max_ge; apply Permutation_in with l'; [now apply Permutation_sym|exact Hn]).
  rewrite E1. lia.
Qed.
Lemma match_moderate {A} (fs fs' : list (sfactor A)) pots pots' p ne' ev B P D K :
  matching fs fs' pots pots' p -> configs_ok fs -> ne' <= length fs' ->
  moderate fs pots (length fs) ev B P D K -> moderate fs' pots' ne' ev B P D K.
Proof.
  intros Hm Hcfg Hne [M1 [M2 [M3 [M4 [M5 [M6 M7]]]]]]. repeat split; try assumption.
  - apply M1; [|assumption]. eapply Permutation_in; [apply (match_edges fs fs' pots pots' p Hm)|assumption].
  - apply M1; [|assumption]. eapply Permutation_in; [apply (match_edges fs fs' pots pots' p Hm)|assumption].
  - intros f' k Hf Hk. destruct (match_onto fs fs' pots pots' p Hm f') as [f [Hf' <-]]; [lia|].
    destruct Hm as [_ [_ [_ H]]]. destruct (H f Hf') as [_ Hp].
    assert (Hi : In (nth k (sf_configs (factor_at fs' (p f))) [], pots' (p f) k) (table fs' pots' (p f))) by (unfold table; apply in_map_iff; exists k; split; [reflexivity|apply in_seq; lia]).
    apply (Permutation_in _ Hp) in Hi. unfold table in Hi. apply in_map_iff in Hi. destruct Hi as [k0 [E Hk0]]. apply in_seq in Hk0. injection E as _ <-. apply M2; lia.
  - intros x. rewrite <- (Permutation_length (match_slots fs fs' pots pots' p Hm x)), map_length. apply M3.
  - intros f' Hf. destruct (match_onto fs fs' pots pots' p Hm f') as [f [Hf' <-]]; [lia|]. rewrite (match_arity fs fs' pots pots' p Hm f Hf'). now apply M4.
  - intros f' u s Hf Hu Hs E. destruct (match_onto fs fs' pots pots' p Hm f') as [f [Hf' <-]]; [lia|].
    rewrite (match_arity fs fs' pots pots' p Hm f Hf') in Hu. rewrite (match_var fs fs' pots pots' p Hm f u Hf') in Hs.
    apply (M5 f u s Hf' Hu Hs). pose proof (match_scores fs fs' pots pots' p Hm Hcfg (fun _ _ _ => 0%R) (fun _ _ _ => 0%R) f u s (fun _ _ _ _ _ _ => eq_refl) Hf' Hu) as Hp.
    apply Permutation_length in Hp. rewrite !map_length, E in Hp. destruct (choices fs f u s); [reflexivity|discriminate].
Qed.

Section Two.
  Context (vgs : list vgroup) (g g' : fgraph R) (T : R) (c c' : bp_ctx R).
  Hypothesis Hok : groups_ok vgs.
  Hypothesis Hr : reachable vgs g.
  Hypothesis Hr' : reachable vgs g'.
  Hypothesis Hwf : wf_groups (gr_groups g).
  Hypothesis Hwf' : wf_groups (gr_groups g').
  Hypothesis Hbp : bp_of g T c.
  Hypothesis Hbp' : bp_of g' T c'.
  Let fs := graph_factors 0%R (gr_groups g).
  Let fs' := graph_factors 0%R (gr_groups g').
  Let lens := map snd (sf_edges fs).
  Let lens' := map snd (sf_edges fs').
  Let evs := read_ev (gr_vars_to_starts g).
  Lemma two_starts : gr_vars_to_starts g' = gr_vars_to_starts g.
  Proof. destruct (reachable_layout _ _ Hok Hr) as [_ [-> _]]. destruct (reachable_layout _ _ Hok Hr') as [_ [-> _]]. reflexivity. Qed.
  Lemma two_groups : st_variable_groups (bs_fg_state (bc_state c')) = st_variable_groups (bs_fg_state (bc_state c)).
  Proof.
    destruct Hbp as [junk [bs [Hc HB]]], Hbp' as [junk' [bs' [Hc' HB']]]. destruct (BP_fields _ _ _ HB) as [E1 _]. destruct (BP_fields _ _ _ HB') as [E1' _].
    rewrite E1, E1'. destruct (compile_fg_state_layout _ _ _ _ Hok Hr Hc) as [-> _]. destruct (compile_fg_state_layout _ _ _ _ Hok Hr' Hc') as [-> _]. reflexivity.
  Qed.

  Section Arrays.
    Context (a a' : bp_arrays R) (p : nat -> nat).
    Hypothesis Ha : arrays_of c a.
    Hypothesis Ha' : arrays_of c' a'.
    Let pots := graph_pots (gr_groups g) (ba_log_potentials a).
    Let pots' := graph_pots (gr_groups g') (ba_log_potentials a').
    Hypothesis Hev : ba_evidence a' = ba_evidence a.
    Hypothesis Hm : matching fs fs' pots pots' p.

    Lemma same_beliefs msgs msgs' : length msgs = length (ba_ftov_msgs a) -> length msgs' = length (ba_ftov_msgs a') ->
      carried fs p (read_msgs fs msgs) (read_msgs fs' msgs') ->
      get_beliefs c' {| ba_log_potentials := ba_log_potentials a'; ba_ftov_msgs := msgs'; ba_evidence := ba_evidence a' |}
      = get_beliefs c {| ba_log_potentials := ba_log_potentials a; ba_ftov_msgs := msgs; ba_evidence := ba_evidence a |}.
    Proof.
      intros L L' Hc. set (b' := {| ba_log_potentials := ba_log_potentials a'; ba_ftov_msgs := msgs'; ba_evidence := ba_evidence a' |}).
      set (b := {| ba_log_potentials := ba_log_potentials a; ba_ftov_msgs := msgs; ba_evidence := ba_evidence a |}).
      assert (Hb : arrays_of c b) by (destruct Ha as [A1 [A2 A3]]; split; [exact A1|]; split; [cbn; congruence|exact A3]).
      assert (Hb' : arrays_of c' b') by (destruct Ha' as [A1 [A2 A3]]; split; [exact A1|]; split; [cbn; congruence|exact A3]).
      unfold get_beliefs. rewrite two_groups. f_equal.
      rewrite (flat_rows vgs g T c Hok Hr Hwf Hbp b Hb), (flat_rows vgs g' T c' Hok Hr' Hwf' Hbp' b' Hb'). f_equal. apply map_ext. intros x.
      unfold vrow. apply map_ext_in. intros s Hs. apply in_seq in Hs. f_equal. rewrite two_starts. cbn [ba_evidence ba_ftov_msgs b b']. rewrite Hev.
      apply (match_belief fs fs' pots pots' p Hm); [exact Hc|lia].
    Qed.
    Lemma C43_run_lemma d n : carried fs p (read_msgs fs (ba_ftov_msgs a)) (read_msgs fs' (ba_ftov_msgs a')) ->
      supported lens ->
      (forall i, i <= n -> above_floor lens (unnormalised c a d i) /\ above_floor lens' (unnormalised c' a' d i)) ->
      (forall i, i < n ->
         in_range fs pots (length (enum_factors (gr_groups g))) T
           (var_to_fac fs (evs (ba_evidence a)) (text_bp fs pots T d (evs (ba_evidence a)) (read_msgs fs (ba_ftov_msgs a)) i)) /\
         in_range fs' pots' (length (enum_factors (gr_groups g'))) T
           (var_to_fac fs' (evs (ba_evidence a)) (text_bp fs' pots' T d (evs (ba_evidence a)) (read_msgs fs' (ba_ftov_msgs a')) i))) ->
      carried fs p (read_msgs fs (ba_ftov_msgs (run_bp c a n d))) (read_msgs fs' (ba_ftov_msgs (run_bp c' a' n d))) /\
      get_beliefs c' (run_bp c' a' n d) = get_beliefs c (run_bp c a n d).
    Proof.
      intros Hc Hsup Hfl Hir.
      assert (Hsup' : supported lens') by (apply supported_perm with lens; [apply Permutation_map, Permutation_sym, (match_edges fs fs' pots pots' p Hm)|exact Hsup]).
      pose proof (C39_lemma vgs g T c Hok Hr Hwf Hbp a Ha d n Hsup (fun i Hi => proj1 (Hfl i Hi)) (fun i Hi => proj1 (Hir i Hi))) as E.
      assert (E' : msg_eq fs' (read_msgs fs' (ba_ftov_msgs (run_bp c' a' n d))) (text_bp fs' pots' T d (evs (ba_evidence a)) (read_msgs fs' (ba_ftov_msgs a')) n)).
      { pose proof (C39_lemma vgs g' T c' Hok Hr' Hwf' Hbp' a' Ha' d n Hsup' (fun i Hi => proj2 (Hfl i Hi))) as E'. rewrite Hev, two_starts in E'. apply E'. intros i Hi. apply (Hir i Hi). }
      assert (Hcar : carried fs p (read_msgs fs (ba_ftov_msgs (run_bp c a n d))) (read_msgs fs' (ba_ftov_msgs (run_bp c' a' n d)))).
      { intros f u s Hf Hu Hs. rewrite E by assumption. rewrite E'.
        - apply (match_text_bp fs fs' pots pots' p Hm (graph_configs_ok (gr_groups g) Hwf)); auto.
        - now apply (match_lt fs fs' pots pots' p Hm).
        - now rewrite (match_arity fs fs' pots pots' p Hm).
        - now rewrite (match_var fs fs' pots pots' p Hm). }
      split; [exact Hcar|]. apply (same_beliefs (ba_ftov_msgs (run_bp c a n d)) (ba_ftov_msgs (run_bp c' a' n d))); [| |exact Hcar].
      - rewrite (proj1 (run_length vgs g T c Hok Hr Hwf Hbp a Ha d n)). symmetry. apply (arrays_lengths vgs g T c Hok Hr Hwf Hbp a Ha).
      - rewrite (proj1 (run_length vgs g' T c' Hok Hr' Hwf' Hbp' a' Ha' d n)). symmetry. apply (arrays_lengths vgs g' T c' Hok Hr' Hwf' Hbp' a' Ha').
    Qed.
    Lemma C43_bounded_lemma B P D K d n : carried fs p (read_msgs fs (ba_ftov_msgs a)) (read_msgs fs' (ba_ftov_msgs a')) ->
      moderate fs pots (length fs) (evs (ba_evidence a)) B P D K ->
      (0 <= T)%R -> (0 <= d <= 1)%R -> supported lens -> above_floor lens (ba_ftov_msgs a) -> above_floor lens' (ba_ftov_msgs a') ->
      carried fs p (read_msgs fs (ba_ftov_msgs (run_bp c a n d))) (read_msgs fs' (ba_ftov_msgs (run_bp c' a' n d))) /\
      get_beliefs c' (run_bp c' a' n d) = get_beliefs c (run_bp c a n d).
    Proof.
      intros Hc M HT Hd Hsup Hfl Hfl'.
      assert (Hsup' : supported lens') by (apply supported_perm with lens; [apply Permutation_map, Permutation_sym, (match_edges fs fs' pots pots' p Hm)|exact Hsup]).
      assert (Hne : forall G : per_type (list (fgroup R)), length (enum_factors G) <= length (graph_factors 0%R G)) by (intros G; unfold graph_factors; rewrite app_length; lia).
      assert (M0 : moderate fs pots (length (enum_factors (gr_groups g))) (evs (ba_evidence a)) B P D K).
      { destruct M as [M1 [M2 [M3 [M4 [M5 M6]]]]]. specialize (Hne (gr_groups g)). fold fs in Hne. split; [exact M1|]. split; [intros; apply M2; auto; lia|]. split; [exact M3|].
        split; [intros; apply M4; lia|]. split; [intros; apply M5; auto; lia|exact M6]. }
      assert (M' : moderate fs' pots' (length (enum_factors (gr_groups g'))) (evs (ba_evidence a)) B P D K).
      { apply (match_moderate fs fs' pots pots' p); [exact Hm|now apply graph_configs_ok|apply Hne|exact M]. }
      pose proof (in_range_text g T Hwf a B P D K M0) as IR.
      assert (M2 := M'). unfold evs in M2. rewrite <- two_starts, <- Hev in M2.
      pose proof (in_range_text g' T Hwf' a' B P D K M2) as IR'. rewrite Hev, two_starts in IR'.
      apply C43_run_lemma; [exact Hc|exact Hsup| |].
      - intros i Hi. split.
        + apply (above_floor_run vgs g T c Hok Hr Hwf Hbp a Ha B P D K M0 HT Hsup Hfl d Hd n i Hi).
        + apply (above_floor_run vgs g' T c' Hok Hr' Hwf' Hbp' a' Ha' B P D K M2 HT Hsup' Hfl' d Hd n i Hi).
      - intros i Hi. split; [apply IR|apply IR'].
    Qed.
  End Arrays.
End Two.

(** ** Graphs built from lists of groups *)
Lemma has_type_iff {A} t (fg : fgroup A) : has_type t fg = true <-> fg_type fg = t.
Proof. unfold has_type. destruct (fg_type fg), t; split; intros H; try reflexivity; discriminate. Qed.
Lemma add_list_cons {A} (fg : fgroup A) l g : add_factors (AList (map AGroup (fg :: l))) g
  = match add_factors (AGroup fg) g with (g1, Ok _) => add_factors (AList (map AGroup l)) g1 | (g1, Raise e) => (g1, Raise e) end.
Proof. reflexivity. Qed.
Lemma sets_of_type_cons {A} t (fg : fgroup A) l : sets_of_type t (fg :: l) = (if has_type t fg then fg_vars fg else []) ++ sets_of_type t l.
Proof. unfold sets_of_type. cbn [filter]. now destruct (has_type t fg). Qed.
Lemma add_list_spec {A} gs (l : list (fgroup A)) g : reachable gs g ->
  (forall g', add_factors (AList (map AGroup l)) g = (g', Ok tt) ->
     reachable gs g' /\ forall t, pt_get t (gr_groups g') = pt_get t (gr_groups g) ++ filter (has_type t) l) /\
  (snd (add_factors (AList (map AGroup l)) g) = Ok tt <->
     forall t, distinct_sets (sets_of_type t l) /\ forall vs, In vs (sets_of_type t l) -> ~ among vs (refused_sets t g)).
Proof.
  revert g. induction l as [|fg l IH]; intros g Hr.
  - cbn [map add_factors]. split.
    + intros g' E. injection E as <-. split; [exact Hr|]. intros t. cbn [filter]. now rewrite app_nil_r.
    + split; [|reflexivity]. intros _ t. unfold sets_of_type. cbn. split; [constructor|]. intros vs [].
  - rewrite add_list_cons. destruct (C16_add_lemma gs g fg Hr) as [A1 [A2 [A3 [A4 A5]]]].
    pose proof (reach_add gs g (AGroup fg) Hr) as Hr1. set (t0 := fg_type fg) in *.
    assert (Hd : distinct_sets (fg_vars fg) /\ (forall vs, In vs (fg_vars fg) -> ~ among vs (refused_sets t0 g)) \/
                 ~ (distinct_sets (fg_vars fg) /\ forall vs, In vs (fg_vars fg) -> ~ among vs (refused_sets t0 g))).
    { destruct A2 as [A2|A2]; [left|right; now apply A1]. destruct (add_group_cases fg g) as [[F _]|[i [vs [_ [_ [_ E]]]]]].
      - fold t0 in F. now apply fresh_prefix_spec in F.
      - change (add_factors (AGroup fg) g) with (add_group fg g) in A2. rewrite E in A2. discriminate. }
    destruct (add_factors (AGroup fg) g) as [g1 [[]|e]] eqn:E; cbn [fst snd] in *.
    + destruct (A3 eq_refl) as [B1 B2]. destruct (IH g1 Hr1) as [C1 C2]. split.
      * intros g' E'. destruct (C1 g' E') as [D1 D2]. split; [exact D1|]. intros t. rewrite D2. cbn [filter].
        destruct (has_type t fg) eqn:Et.
        -- apply has_type_iff in Et. subst t. fold t0. rewrite B1, <- app_assoc. reflexivity.
        -- assert (Hne : t <> t0) by (intros ->; unfold t0 in Et; rewrite (proj2 (has_type_iff (fg_type fg) fg) eq_refl) in Et; discriminate).
           now rewrite (proj1 (A5 t Hne)).
      * destruct Hd as [[Hd1 Hd2]|Hd]; [|apply A1 in Hd; discriminate]. rewrite C2. split; intros H t; specialize (H t); rewrite sets_of_type_cons in *.
        -- destruct (has_type t fg) eqn:Et.
           ++ apply has_type_iff in Et. subst t. fold t0 in H |- *. rewrite B2 in H. destruct H as [H1 H2]. split.
              ** apply distinct_sets_app. split; [exact Hd1|]. split; [exact H1|]. intros vs Hv Ha. apply (H2 vs Hv). apply among_app. now right.
              ** intros vs Hv. apply in_app_or in Hv. destruct Hv as [Hv|Hv]; [now apply Hd2|]. intros Ha. apply (H2 vs Hv). apply among_app. now left.
           ++ assert (Hne : t <> t0) by (intros ->; unfold t0 in Et; rewrite (proj2 (has_type_iff (fg_type fg) fg) eq_refl) in Et; discriminate).
              rewrite (proj2 (A5 t Hne)) in H. exact H.
        -- destruct (has_type t fg) eqn:Et.
           ++ apply has_type_iff in Et. subst t. fold t0 in H |- *. rewrite B2. destruct H as [H1 H2]. apply distinct_sets_app in H1. destruct H1 as [_ [H1 H3]]. split; [exact H1|].
              intros vs Hv Ha. apply among_app in Ha. destruct Ha as [Ha|Ha]; [apply (H2 vs); [apply in_or_app; now right|exact Ha]|now apply (H3 vs Hv)].
           ++ assert (Hne : t <> t0) by (intros ->; unfold t0 in Et; rewrite (proj2 (has_type_iff (fg_type fg) fg) eq_refl) in Et; discriminate).
              rewrite (proj2 (A5 t Hne)). exact H.
    + split; [discriminate|]. split; [discriminate|]. intros H. exfalso. assert (Ee : Raise e = Raise ValueError) by (destruct A2 as [A2|A2]; [discriminate|exact A2]).
      apply (proj1 A1 Ee). specialize (H t0). rewrite sets_of_type_cons in H. unfold t0 in H at 1 2 3. rewrite (proj2 (has_type_iff (fg_type fg) fg) eq_refl) in H. fold t0 in H. destruct H as [H1 H2].
      split; [now apply distinct_sets_app in H1|]. intros vs Hv. apply H2. apply in_or_app. now left.
Qed.
Lemma C43_accepted_lemma {A} arg (l : list (fgroup A)) :
  snd (add_factors (AList (map AGroup l)) (FactorGraph arg)) = Ok tt <-> forall t, distinct_sets (sets_of_type t l).
Proof.
  rewrite (proj2 (add_list_spec (arg_groups arg) l (FactorGraph arg) (reach_new _ arg eq_refl))). split; intros H t; [apply H|]. split; [apply H|].
  intros vs _ [ws [Hw _]]. unfold refused_sets in Hw. destruct (@FactorGraph_groups A arg) as [_ E]. rewrite E in Hw. destruct t; destruct Hw.
Qed.
Lemma built_groups {A} arg (l : list (fgroup A)) g : built_from arg l g ->
  reachable (arg_groups arg) g /\ gr_groups g = PT (filter (has_type TEnum) l) (filter (has_type TOr) l) (filter (has_type TAnd) l).
Proof.
  intros H. destruct (proj1 (add_list_spec (arg_groups arg) l (FactorGraph arg) (reach_new _ arg eq_refl)) g H) as [H1 H2]. split; [exact H1|].
  destruct (@FactorGraph_groups A arg) as [E _]. pose proof (H2 TEnum) as He. pose proof (H2 TOr) as Ho. pose proof (H2 TAnd) as Hn. rewrite E in He, Ho, Hn. cbn [pt_get app] in He, Ho, Hn.
  destruct (gr_groups g) as [x y z]. cbn in He, Ho, Hn. now rewrite He, Ho, Hn.
Qed.
Lemma built_wf {A} arg (l : list (fgroup A)) g : built_from arg l g -> (forall fg, In fg l -> valid_group fg /\ fg_vars fg <> []) -> wf_groups (gr_groups g).
Proof.
  intros H Hv t fg Hi. destruct (built_groups _ _ _ H) as [_ E]. rewrite E in Hi.
  assert (Hi' : In fg (filter (has_type t) l)) by (destruct t; exact Hi). apply filter_In in Hi'. destruct Hi' as [Hi' Ht]. apply has_type_iff in Ht. split; [exact Ht|now apply Hv].
Qed.
Lemma built_factors {A} (z : A) arg (l : list (fgroup A)) g : built_from arg l g ->
  Permutation (graph_factors z (gr_groups g)) (flat_map (factors_of z) l).
Proof.
  intros H. destruct (built_groups _ _ _ H) as [_ ->]. clear H. unfold graph_factors, enum_factors, logical_factors. cbn [pt_enum pt_get pt_or pt_and].
  induction l as [|fg l IH]; [apply Permutation_refl|]. cbn [filter flat_map].
  assert (E : forall t, has_type t fg = match fg_type fg, t with TEnum, TEnum | TOr, TOr | TAnd, TAnd => true | _, _ => false end) by reflexivity.
  rewrite !E. unfold factors_of at 1. destruct (fg_type fg); cbn [flat_map map concat].
  - rewrite <- app_assoc. apply Permutation_app_head. exact IH.
  - rewrite map_app, <- (app_assoc (map _ _)).
    eapply Permutation_trans; [apply Permutation_app_swap_app|]. apply Permutation_app_head. exact IH.
  - rewrite map_app. rewrite (app_assoc (flat_map _ _)). eapply Permutation_trans; [apply Permutation_app_swap_app|].
    apply Permutation_app_head. rewrite <- app_assoc. exact IH.
Qed.

(** ** The potentials of a compiled graph are those of its factors *)
Lemma group_pots_length {A} (g : fgroup A) F : fg_type g = TEnum -> valid_group g -> In F (group_factors g) -> length (sf_pots F) = length (sf_configs F).
Proof.
  intros Ht Hv HF. unfold valid_group in Hv. rewrite Ht in Hv. destruct Hv as [nc [Hl Hv]].
  unfold group_factors in HF. apply in_map_iff in HF. destruct HF as [[i vs] [<- Hi]]. cbn [fst snd sf_pots sf_configs].
  assert (Hin : In vs (fg_vars g)) by (eapply in_combine_r; exact Hi). apply in_combine_l, in_seq in Hi.
  destruct (Hv vs Hin) as [Es _]. rewrite Es. cbn [nth]. unfold config_rows. rewrite Es, map_length, seq_length. cbn [nth].
  rewrite slice_length. nia.
Qed.
Lemma enum_pots_length {A} (G : per_type (list (fgroup A))) F : wf_groups G -> In F (enum_factors G) -> length (sf_pots F) = length (sf_configs F).
Proof.
  intros Hwf HF. unfold enum_factors in HF. apply in_flat_map in HF. destruct HF as [g [Hg HF]]. destruct (Hwf TEnum g Hg) as [H1 [H2 _]]. now apply (group_pots_length g).
Qed.
Lemma nth_zeros {X} (l : list X) k : nth k (map (fun _ => 0%R) l) 0%R = 0%R.
Proof. revert k. induction l as [|x l IH]; intros [|k]; try reflexivity. apply IH. Qed.
Lemma own_pots (G : per_type (list (fgroup R))) f k : wf_groups G -> f < length (graph_factors 0%R G) ->
  k < length (sf_configs (factor_at (graph_factors 0%R G) f)) ->
  graph_pots G (concat (pt_values (compile_log_potentials G))) f k = nth k (sf_pots (factor_at (graph_factors 0%R G) f)) 0%R.
Proof.
  intros Hwf Hf Hk. unfold graph_pots. destruct (Nat.ltb_spec f (length (enum_factors G))) as [Hl|Hl].
  - rewrite (graph_fs G) in *. rewrite factor_app1 in * by exact Hl. unfold read_pots, pt_values. cbn [concat].
    rewrite (enum_pots_all G Hwf).
    assert (E : map (fun F : sfactor R => length (sf_configs F)) (enum_factors G) = map (@length R) (map sf_pots (enum_factors G))).
    { rewrite map_map. apply map_ext_in. intros F HF. symmetry. now apply (enum_pots_length G). }
    assert (Hn : nth f (map sf_pots (enum_factors G)) [] = sf_pots (factor_at (enum_factors G) f)) by (rewrite (nth_map _ _ _ _ (SF [] [] [])) by exact Hl; reflexivity).
    assert (Hkl : k < length (nth f (map sf_pots (enum_factors G)) [])) by (rewrite Hn, (enum_pots_length G) by (auto; now apply nth_In); exact Hk).
    unfold sf_first_config. rewrite E, app_nth1.
    + rewrite nth_concat; [now rewrite Hn|now rewrite map_length|exact Hkl].
    + rewrite concat_length. apply off_block_lt; [now rewrite !map_length|]. rewrite (nth_map _ _ _ _ []) by (now rewrite map_length). exact Hkl.
  - symmetry. revert Hf Hk. rewrite (graph_fs G). replace f with (length (enum_factors G) + (f - length (enum_factors G))) by lia. rewrite factor_app2.
    rewrite app_length. generalize (f - length (enum_factors G)). clear f Hl. intros f Hf Hk.
    assert (Hin : In (factor_at (map (logical_sf 0%R TOr) (logical_factors TOr G) ++ map (logical_sf 0%R TAnd) (logical_factors TAnd G)) f)
                     (map (logical_sf 0%R TOr) (logical_factors TOr G) ++ map (logical_sf 0%R TAnd) (logical_factors TAnd G))) by (apply nth_In; lia).
    apply in_app_or in Hin. destruct Hin as [Hin|Hin]; apply in_map_iff in Hin; destruct Hin as [vs [<- _]]; cbn [logical_sf sf_pots]; apply nth_zeros.
Qed.
Lemma perm_matching (G G' : per_type (list (fgroup R))) : wf_groups G -> wf_groups G' ->
  Permutation (graph_factors 0%R G) (graph_factors 0%R G') ->
  exists p, matching (graph_factors 0%R G) (graph_factors 0%R G')
    (graph_pots G (concat (pt_values (compile_log_potentials G)))) (graph_pots G' (concat (pt_values (compile_log_potentials G')))) p.
Proof.
  intros Hwf Hwf' Hp. apply Permutation_sym in Hp. apply (Permutation_nth _ _ (SF [] [] [])) in Hp. destruct Hp as [Hl [p [H1 [H2 H3]]]].
  exists p. split; [now symmetry|]. split; [intros f Hf; rewrite Hl in *; now apply H1|]. split; [intros f h Hf Hh; apply H2; lia|].
  intros f Hf. specialize (H3 f ltac:(lia)).
  assert (E : factor_at (graph_factors 0%R G') (p f) = factor_at (graph_factors 0%R G) f) by (symmetry; exact H3).
  rewrite E. split; [reflexivity|]. unfold table. rewrite E. match goal with |- Permutation (map ?F ?l) (map ?H ?l) => rewrite (map_ext_in F H l); [apply Permutation_refl|] end.
  intros k Hk. apply in_seq in Hk. f_equal. rewrite (own_pots G), (own_pots G'); [now rewrite E|assumption|apply H1; lia|rewrite E; lia|assumption|exact Hf|lia].
Qed.

(** ** Fresh contexts and their arrays *)
Lemma fresh_fields (g : fgraph R) T c : fresh_bp g T c ->
  bp_of g T c /\ exists junk k st, compile_fg_state junk g = Ok st /\ BP (bc_state c) T = Ok c /\ default_bp_state (k, st) = Ok (bc_state c) /\ bs_fg_state (bc_state c) = st.
Proof.
  intros [junk [st [k [bs [Hc [Hd HB]]]]]]. destruct (BP_fields _ _ _ HB) as [E _].
  assert (Es : bs_fg_state bs = st) by (cbv [default_bp_state LogPotentials FToVMessages Evidence bind BPState same_state c_state fst] in Hd; rewrite Nat.eqb_refl in Hd; cbn in Hd; injection Hd as <-; reflexivity).
  split; [exists junk, bs; rewrite Es; now split|]. exists junk, k, st. rewrite E. auto.
Qed.
Lemma init_fields (g : fgraph R) T c eu a : fresh_bp g T c -> bp_init c None None eu = Ok a ->
  let st := bs_fg_state (bc_state c) in
  arrays_of c a /\ ba_log_potentials a = concat (pt_values (compile_log_potentials (gr_groups g))) /\
  ba_ftov_msgs a = repeat 0%R (st_total_factor_num_states st) /\
  match eu with None => Ok (repeat 0%R (st_num_var_states st)) | Some u => update_evidence st (repeat 0%R (st_num_var_states st)) u end = Ok (ba_evidence a).
Proof.
  intros Hf Hi st. destruct (fresh_fields g T c Hf) as [_ [junk [k [st' [Hc [_ [Hd Es]]]]]]]. fold st in Es. subst st'.
  cbv [default_bp_state LogPotentials FToVMessages Evidence bind BPState same_state c_state fst snd] in Hd. rewrite Nat.eqb_refl in Hd. cbn [negb orb] in Hd. injection Hd as Hd.
  unfold bp_init, bp_update in Hi. fold st in Hi. rewrite <- Hd in Hi. cbn [bs_log_potentials bs_ftov_msgs bs_evidence c_value bind] in Hi.
  assert (Hst : st_log_potentials st = concat (pt_values (compile_log_potentials (gr_groups g)))).
  { destruct (compile_fg_state_inv _ _ _ Hc) as [w [_ [-> _]]]. reflexivity. }
  change (n0 : R) with 0%R in Hi. destruct eu as [u|]; cbn [ba_evidence] in Hi.
  - destruct (update_evidence st (repeat 0%R (st_num_var_states st)) u) as [ev|e] eqn:Ee; [|discriminate]. cbn in Hi. injection Hi as <-.
    split; [|now split]. split; [reflexivity|]. split; [apply repeat_length|]. cbn [ba_evidence]. rewrite (update_evidence_length _ _ _ _ Ee). apply repeat_length.
  - cbn in Hi. injection Hi as <-. split; [|now split]. split; [reflexivity|]. split; apply repeat_length.
Qed.
Lemma update_evidence_same {A} (st st' : fg_state A) ev u : st_variable_groups st' = st_variable_groups st -> st_vars_to_starts st' = st_vars_to_starts st ->
  update_evidence st' ev u = update_evidence st ev u.
Proof.
  intros E1 E2. unfold update_evidence. revert ev. induction u as [|[k d] u IH]; intros ev; [reflexivity|]. cbn [foldM].
  unfold update_evidence_step at 1 3. rewrite E1, E2. destruct (match k with EGroup _ => _ | _ => _ end); [apply IH|reflexivity].
Qed.
Lemma zeros_above lens n : above_floor lens (repeat 0%R n).
Proof.
  intros e He. right. assert (H : rmaxs (segment lens (repeat 0%R n) e) = 0%R); [|rewrite H; unfold neg_inf; lra].
  unfold segment, slice. assert (Hx : forall y, In y (firstn (off lens e + nth e lens 0 - off lens e) (skipn (off lens e) (repeat 0%R n))) -> y = 0%R).
  { intros y Hy. apply (repeat_spec n 0%R). set (k := off lens e) in *. rewrite <- (firstn_skipn k). apply in_or_app. right. set (l := skipn k _) in *.
    rewrite <- (firstn_skipn (k + nth e lens 0 - k) l). apply in_or_app. now left. }
  destruct (firstn _ _) as [|y l]; [reflexivity|]. apply rmaxs_eq; [rewrite (Hx y (or_introl eq_refl)); now left|]. intros z Hz. rewrite (Hx z Hz). lra.
Qed.
Lemma read_zeros {A} (fs : list (sfactor A)) n f u s : read_msgs fs (repeat 0%R n) f u s = 0%R.
Proof. unfold read_msgs. destruct (nth_in_or_default (slot_index fs f u s) (repeat 0%R n) 0%R) as [H|H]; [now apply repeat_spec in H|exact H]. Qed.

Lemma C43_graphs_lemma vgs (g g' : fgraph R) T c c' eu a a' :
  groups_ok vgs -> reachable vgs g -> reachable vgs g' -> wf_groups (gr_groups g) -> wf_groups (gr_groups g') ->
  Permutation (graph_factors 0%R (gr_groups g)) (graph_factors 0%R (gr_groups g')) ->
  fresh_bp g T c -> fresh_bp g' T c' -> bp_init c None None eu = Ok a -> bp_init c' None None eu = Ok a' ->
  let fs := graph_factors 0%R (gr_groups g) in
  forall B P D K d n,
  moderate fs (fun f k => nth k (sf_pots (factor_at fs f)) 0%R) (length fs) (read_ev (gr_vars_to_starts g) (ba_evidence a)) B P D K ->
  (0 <= T)%R -> (0 <= d <= 1)%R -> supported (map snd (sf_edges fs)) ->
  get_beliefs c' (run_bp c' a' n d) = get_beliefs c (run_bp c a n d).
Proof.
  intros Hok Hr Hr' Hwf Hwf' Hp Hf Hf' Hi Hi' fs B P D K d n M HT Hd Hsup.
  pose proof (fresh_fields g T c Hf) as [Hbp _]. pose proof (fresh_fields g' T c' Hf') as [Hbp' _].
  destruct (init_fields g T c eu a Hf Hi) as [Ha [El [Em Ev]]]. destruct (init_fields g' T c' eu a' Hf' Hi') as [Ha' [El' [Em' Ev']]].
  destruct (perm_matching (gr_groups g) (gr_groups g') Hwf Hwf' Hp) as [p Hm]. rewrite <- El, <- El' in Hm.
  assert (Hev : ba_evidence a' = ba_evidence a).
  { pose proof (two_groups vgs g g' T c c' Hok Hr Hr' Hbp Hbp') as E1.
    assert (E2 : st_num_var_states (bs_fg_state (bc_state c')) = st_num_var_states (bs_fg_state (bc_state c)) /\ st_vars_to_starts (bs_fg_state (bc_state c')) = st_vars_to_starts (bs_fg_state (bc_state c))).
    { destruct (ctx_state g T c Hbp) as [junk Hc]. destruct (ctx_state g' T c' Hbp') as [junk' Hc'].
      destruct (compile_fg_state_layout _ _ _ _ Hok Hr Hc) as [_ [-> ->]]. destruct (compile_fg_state_layout _ _ _ _ Hok Hr' Hc') as [_ [-> ->]]. now split. }
    destruct E2 as [E2 E3]. destruct eu as [u|]; rewrite E2 in Ev'; [rewrite (update_evidence_same _ _ _ _ E1 E3) in Ev'|]; congruence. }
  apply (C43_bounded_lemma vgs g g' T c c' Hok Hr Hr' Hwf Hwf' Hbp Hbp' a a' p Ha Ha' Hev Hm B P D K d n); try assumption.
  - intros f u s _ _ _. rewrite Em, Em'. now rewrite !read_zeros.
  - destruct M as [M1 [M2 M3]]. split; [exact M1|]. split; [|exact M3]. intros f k Hf0 Hk. rewrite El, own_pots by assumption. now apply M2.
  - rewrite Em. apply zeros_above.
  - rewrite Em'. apply zeros_above.
Qed.
Lemma C43_lemma arg l l' (g g' : fgraph R) T c c' eu a a' :
  groups_ok (arg_groups arg) -> (forall fg, In fg (l ++ l') -> valid_group fg /\ fg_vars fg <> []) ->
  built_from arg l g -> built_from arg l' g' ->
  Permutation (flat_map (factors_of 0%R) l) (flat_map (factors_of 0%R) l') ->
  fresh_bp g T c -> fresh_bp g' T c' -> bp_init c None None eu = Ok a -> bp_init c' None None eu = Ok a' ->
  let fs := graph_factors 0%R (gr_groups g) in
  forall B P D K d n,
  moderate fs (fun f k => nth k (sf_pots (factor_at fs f)) 0%R) (length fs) (read_ev (gr_vars_to_starts g) (ba_evidence a)) B P D K ->
  (0 <= T)%R -> (0 <= d <= 1)%R -> supported (map snd (sf_edges fs)) ->
  get_beliefs c' (run_bp c' a' n d) = get_beliefs c (run_bp c a n d).
Proof.
  intros Hok Hv Hb Hb' Hp Hf Hf' Hi Hi'. apply (C43_graphs_lemma (arg_groups arg) g g' T c c' eu a a'); auto.
  - apply (built_groups _ _ _ Hb).
  - apply (built_groups _ _ _ Hb').
  - apply (built_wf _ _ _ Hb). intros fg H. apply Hv, in_or_app. now left.
  - apply (built_wf _ _ _ Hb'). intros fg H. apply Hv, in_or_app. now right.
  - eapply Permutation_trans; [apply (built_factors 0%R _ _ _ Hb)|]. eapply Permutation_trans; [exact Hp|]. apply Permutation_sym, (built_factors 0%R _ _ _ Hb').
Qed.
Lemma distinct_sets_perm l l' : Permutation l l' -> distinct_sets l -> distinct_sets l'.
Proof.
  intros Hp. induction Hp as [|x l l' Hp IH|x y l|l l2 l3 H1 IH1 H2 IH2]; intros H; [constructor| | |auto].
  - inversion H as [|? ? HF Hd]; subst. constructor; [|now apply IH]. rewrite Forall_forall in *. intros z Hz. apply HF. eapply Permutation_in; [apply Permutation_sym; exact Hp|exact Hz].
  - inversion H as [|? ? HF Hd]; subst. inversion Hd as [|? ? HF2 Hd2]; subst. inversion HF as [|? ? Hxy HF3]; subst. constructor; [constructor; [|exact HF2]|now constructor].
    intros Hs. apply Hxy. now apply same_set_sym.
Qed.
Lemma C43_accepted_order_lemma {A} arg (l l' : list (fgroup A)) : Permutation l l' ->
  snd (add_factors (AList (map AGroup l)) (FactorGraph arg)) = Ok tt <-> snd (add_factors (AList (map AGroup l')) (FactorGraph arg)) = Ok tt.
Proof.
  intros Hp. rewrite !C43_accepted_lemma. split; intros H t; (eapply distinct_sets_perm; [|apply (H t)]); unfold sets_of_type; apply Permutation_flat_map, filter_perm; [exact Hp|now apply Permutation_sym].
Qed.
