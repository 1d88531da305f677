(** * Proofs about chains of messages (C64). *)
From Verif Require Import NumPy Lists VGroup FGraph BPState BP SpecVGroup SpecFGraph SpecFactor SpecAdd SpecWiring SpecState SpecBP SpecText SpecBeliefs SpecConv SpecTree SpecSum SpecDepth.
From Verif Require Import LemFactor LemFGraph LemAdd LemWiring LemGraph LemState LemNum LemNorm LemVtoF LemLogBP LemText LemRun LemIter LemBeliefs LemShift LemStable LemPerm LemTree LemSpread LemSum LemLocal LemConv LemSep.
From Coq Require Import Reals Lra Lia.
Local Open Scope nat_scope.

Section Chains.
  Context {A : Type} (fs : list (sfactor A)).
  Lemma chain_slot n q : chain fs n q -> is_slot fs q.
  Proof. intros [q' H|k p q' _ [_ [H _]]]; exact H. Qed.
  Lemma chain_shorter n k q : chain fs n q -> 1 <= k <= n -> chain fs k q.
  Proof.
    intros H. revert k. induction H as [q Hq|n q q' Hc IH Hf]; intros k Hk; [replace k with 1 by lia; now constructor|].
    destruct k as [|[|k]]; [lia|constructor; apply Hf|]. apply (chain_step fs (S k) q q'); [apply IH; lia|exact Hf].
  Qed.
  Lemma depth_iff L : 0 < L -> (depth_within fs L <-> forall q, ~ chain fs (S L) q).
  Proof.
    intros HL. split; [intros H q Hc; specialize (H _ _ Hc); lia|]. intros H n q Hc. destruct (Nat.le_gt_cases n L) as [|Hlt]; [assumption|].
    exfalso. apply (H q). apply (chain_shorter n); [exact Hc|lia].
  Qed.
  (** A check. *)
  Definition feedsb (q q' : nat * nat) : bool :=
    existsb (fun w => negb (w =? snd q') && var_eqb (var_at fs (fst q) (snd q)) (var_at fs (fst q') w) && negb (slot_eqb q (fst q', w))) (seq 0 (arity fs (fst q'))).
  Fixpoint chainb (n : nat) (q : nat * nat) : bool :=
    match n with
    | 0 => false
    | 1 => true
    | S k => existsb (fun q' => feedsb q' q && chainb k q') (slots fs)
    end.
  Lemma feedsb_ok q q' : feeds fs q q' -> feedsb q q' = true.
  Proof.
    intros [_ [_ [w [H1 [H2 [H3 H4]]]]]]. apply existsb_exists. exists w. split; [apply in_seq; lia|]. rewrite !Bool.andb_true_iff, !Bool.negb_true_iff. split; [split|].
    - now apply Nat.eqb_neq.
    - now apply var_eqb_eq.
    - destruct (slot_eqb q (fst q', w)) eqn:E; [|reflexivity]. apply slot_eqb_eq in E. contradiction.
  Qed.
  Lemma chainb_ok n q : chain fs n q -> chainb n q = true.
  Proof.
    intros H. induction H as [q Hq|n q q' Hc IH Hf]; [reflexivity|]. destruct n as [|n]; [inversion Hc|]. change (existsb (fun p => feedsb p q' && chainb (S n) p) (slots fs) = true).
    apply existsb_exists. exists q. split; [destruct q as [f u]; apply In_slots; exact (chain_slot _ _ Hc)|]. now rewrite (feedsb_ok _ _ Hf), IH.
  Qed.
  Lemma depth_check L : 0 < L -> forallb (fun q => negb (chainb (S L) q)) (slots fs) = true -> depth_within fs L.
  Proof.
    intros HL H. apply depth_iff; [exact HL|]. intros q Hc. rewrite forallb_forall in H. specialize (H q). rewrite (chainb_ok _ _ Hc) in H.
    assert (Hi : In q (slots fs)) by (destruct q as [f u]; apply In_slots; exact (chain_slot _ _ Hc)). discriminate (H Hi).
  Qed.

  (** ** Chains and cycles *)
  Lemma chain_walk n q : chain fs n q -> exists l b, walk fs (seq 0 (length fs)) l b /\ first_slot l b = q /\ S (length l) = n.
  Proof.
    intros H. induction H as [q [H1 H2]|n q q' Hc [l [b [W [E Hl]]]] [F1 [[F2 F3] [w [F4 [F5 [F6 F7]]]]]]].
    - exists [], q. split; [constructor; split; [apply in_seq; cbn; lia|exact H2]|]. auto.
    - exists (Pass (fst q') (snd q') w :: l), b. split; [|split; [now destruct q'|cbn [length]; lia]].
      constructor; cbn [sp_factor sp_in sp_out].
      + split; [apply in_seq; cbn; lia|exact F3].
      + repeat split; cbn; auto.
      + unfold out_var. cbn. rewrite E. unfold svar. now rewrite F6.
      + rewrite E. auto.
      + exact W.
  Qed.
  Lemma acyclic_depth : acyclic fs -> depth_within fs (length fs).
  Proof. intros Hac n q Hc. destruct (chain_walk n q Hc) as [l [b [W [_ <-]]]]. pose proof (walk_short fs (seq 0 (length fs)) Hac l b W) as H. rewrite seq_length in H. exact H. Qed.
  Lemma depth_acyclic L : depth_within fs L -> acyclic fs.
  Proof.
    intros HL l [Hne [Hv [Ho [Nf _]]]]. set (k := length l). assert (Hk : 0 < k) by (unfold k; destruct l; [contradiction|cbn; lia]).
    set (d := Pass 0 0 0). set (at_ := fun i => nth i l d).
    assert (Hval : forall i, i < k -> valid_passage fs (at_ i)) by (intros i Hi; rewrite Forall_forall in Hv; apply Hv; now apply nth_In).
    set (next := fun i => if S i =? k then 0 else S i).
    assert (Hnext : forall i, i < k -> next i < k) by (intros i Hi; unfold next; destruct (Nat.eqb_spec (S i) k); lia).
    assert (Hvar : forall i, i < k -> out_var fs (at_ i) = in_var fs (at_ (next i))).
    { intros i Hi. assert (E : nth i (map (out_var fs) l) (out_var fs d) = nth i (map (in_var fs) (rotate l)) (out_var fs d)) by now rewrite Ho.
      rewrite map_nth in E. rewrite (nth_indep _ (out_var fs d) (in_var fs d)) in E by (rewrite map_length, rotate_length; exact Hi).
      rewrite map_nth, rotate_nth in E by exact Hi. exact E. }
    assert (Hf : forall i, i < k -> feeds fs (sp_factor (at_ i), sp_out (at_ i)) (sp_factor (at_ (next i)), sp_out (at_ (next i)))).
    { intros i Hi. destruct (Hval i Hi) as [V1 [V2 [V3 V4]]]. destruct (Hval _ (Hnext i Hi)) as [W1 [W2 [W3 W4]]].
      split; [now split|]. split; [now split|]. exists (sp_in (at_ (next i))). cbn [fst snd]. split; [exact W2|]. split; [exact W4|]. split; [exact (Hvar i Hi)|].
      intros E. injection E as E1 E2. destruct (Nat.eq_dec (next i) i) as [En|En]; [rewrite En in E2; congruence|].
      apply En. apply (proj1 (NoDup_nth (map sp_factor l) 0) Nf); [rewrite map_length; now apply Hnext|now rewrite map_length|].
      change 0 with (sp_factor d) at 1. rewrite map_nth. change 0 with (sp_factor d) at 1. rewrite map_nth. exact (eq_sym E1). }
    assert (C : forall n, exists i, i < k /\ chain fs (S n) (sp_factor (at_ i), sp_out (at_ i))).
    { intros n. induction n as [|n [i [Hi IH]]].
      - exists 0. split; [exact Hk|]. constructor. destruct (Hval 0 Hk) as [V1 [V2 [V3 V4]]]. now split.
      - exists (next i). split; [now apply Hnext|]. exact (chain_step fs _ _ _ IH (Hf i Hi)). }
    destruct (C L) as [i [_ Hc]]. specialize (HL _ _ Hc). lia.
  Qed.

  (** ** Messages *)
  Context (pots : nat -> nat -> R) (T : R) (ev : variable -> nat -> R).
  Hypothesis Hcfg : configs_ok fs.
  Definition same_at (m m' : msg) (q : nat * nat) : Prop := forall s, s < snd (var_at fs (fst q) (snd q)) -> m (fst q) (snd q) s = m' (fst q) (snd q) s.
  Lemma same_ftov v v' f u : f < length fs -> u < arity fs f -> (forall w, w < arity fs f -> w <> u -> same_at v v' (f, w)) -> same_at (fac_to_var fs pots T v) (fac_to_var fs pots T v') (f, u).
  Proof.
    intros Hf Hu Hv s Hs. cbn [fst snd] in *.
    assert (E : forall c, In c (choices fs f u s) -> score_but fs pots v f c u = score_but fs pots v' f c u).
    { intros c Hc. apply choice_iff in Hc. unfold score_but. f_equal. apply LemNum.rsum_ext. intros w Hw. apply filter_In in Hw. destruct Hw as [Hw Hne]. apply in_seq in Hw. apply negb_true_iff, Nat.eqb_neq in Hne.
      apply (Hv w ltac:(lia) Hne). cbn [fst snd]. apply config_ok; [exact Hcfg|exact Hf|apply Hc|lia]. }
    unfold fac_to_var. destruct (Req_EM_T T 0) as [_|_].
    - unfold fac_to_var_max. f_equal. now apply map_ext_in.
    - unfold fac_to_var_soft. f_equal. f_equal. apply LemNum.rsum_ext. intros c Hc. now rewrite E.
  Qed.
  Lemma same_normal_at m m' q : same_at m m' q -> same_at (normal fs m) (normal fs m') q.
  Proof.
    intros H s Hs. unfold normal. f_equal. rewrite (H s Hs). f_equal. f_equal. apply map_ext_in. intros t Ht. apply in_seq in Ht. apply H. lia.
  Qed.
  Lemma same_after L m m' : forall q, is_slot fs q -> ~ chain fs (S L) q -> forall i i', L <= i -> L <= i' -> same_at (text_bp fs pots T 0 ev m i) (text_bp fs pots T 0 ev m' i') q.
  Proof.
    induction L as [|L IH]; intros q Hq Hc i i' Hi Hi'; [exfalso; apply Hc; now constructor|].
    destruct i as [|i]; [lia|]. destruct i' as [|i']; [lia|]. destruct q as [f u]. destruct Hq as [Hf Hu]. cbn [fst snd] in *.
    change (same_at (text_step fs pots T 0 ev (text_bp fs pots T 0 ev m i)) (text_step fs pots T 0 ev (text_bp fs pots T 0 ev m' i')) (f, u)). unfold text_step. apply same_normal_at.
    intros s Hs. unfold damp. rewrite !Rmult_0_l. f_equal. f_equal. refine (same_ftov _ _ f u Hf Hu _ s Hs). intros w Hw Hne t Ht. cbn [fst snd] in *. unfold var_to_fac. f_equal.
    apply LemNum.rsum_ext. intros [h v] Hi2. apply filter_In in Hi2. destruct Hi2 as [Hi2 Hs2]. apply In_slots_of in Hi2. destruct Hi2 as [I1 [I2 I3]].
    assert (Hx : feeds fs (h, v) (f, u)).
    { split; [now split|]. split; [now split|]. exists w. cbn [fst snd]. split; [exact Hw|]. split; [exact Hne|]. split; [exact I3|]. intros E. rewrite (proj2 (slot_eqb_eq _ _) E) in Hs2. discriminate. }
    refine (IH (h, v) (conj I1 I2) _ i i' _ _ t _); [|lia|lia|cbn [fst snd]; now rewrite I3]. intros Hch. apply Hc. exact (chain_step fs _ _ _ Hch Hx).
  Qed.
End Chains.

(** ** Runs *)
Section Runs.
  Context (vgs : list vgroup) (g : fgraph R) (T : R) (c : bp_ctx R).
  Hypothesis Hok : groups_ok vgs.
  Hypothesis Hr : reachable vgs g.
  Hypothesis Hwf : wf_groups (gr_groups g).
  Hypothesis Hbp : bp_of g T c.
  Context (a a' : bp_arrays R).
  Hypothesis Ha : arrays_of c a.
  Hypothesis Ha' : arrays_of c a'.
  Let fs := graph_factors 0%R (gr_groups g).
  Let pots b := graph_pots (gr_groups g) (ba_log_potentials b).
  Let ne := length (enum_factors (gr_groups g)).
  Let lens := map snd (sf_edges fs).
  Let ev b := read_ev (gr_vars_to_starts g) (ba_evidence b).
  Context (B P : R) (D K : nat).
  Hypothesis HT : (0 <= T)%R.
  Hypothesis M : moderate fs (pots a) ne (ev a) B P D K.
  Hypothesis Hsup : supported lens.
  Hypothesis Hfl : above_floor lens (ba_ftov_msgs a).
  Hypothesis Hfl' : above_floor lens (ba_ftov_msgs a').
  Hypothesis Hlp : ba_log_potentials a' = ba_log_potentials a.
  Hypothesis Hev : ba_evidence a' = ba_evidence a.
  Lemma C64_converges_lemma L : depth_within fs L -> forall n n', L <= n -> L <= n' -> ba_ftov_msgs (run_bp c a' n' 0%R) = ba_ftov_msgs (run_bp c a n 0%R).
  Proof.
    intros HL n n' Hn Hn'. apply (read_ext fs).
    - apply (run_length vgs g T c Hok Hr Hwf Hbp a' Ha').
    - apply (run_length vgs g T c Hok Hr Hwf Hbp a Ha).
    - assert (M' : moderate fs (pots a') ne (ev a') B P D K) by (unfold pots, ev; rewrite Hlp, Hev; exact M). assert (Hd : (0 <= 0 <= 1)%R) by lra.
      eapply msg_eq_trans; [apply (LemSep.run_text vgs g T c Hok Hr Hwf Hbp a' Ha' 0%R B P D K HT Hd M' Hsup Hfl' n')|].
      eapply msg_eq_trans; [|apply msg_eq_sym, (LemSep.run_text vgs g T c Hok Hr Hwf Hbp a Ha 0%R B P D K HT Hd M Hsup Hfl n)].
      intros f u s Hf Hu Hs. rewrite Hlp, Hev.
      refine (same_after fs (pots a) T (ev a) (graph_configs_ok _ Hwf) L _ _ (f, u) (conj Hf Hu) _ n' n Hn' Hn s Hs). intros Hc. specialize (HL _ _ Hc). lia.
  Qed.
End Runs.

Lemma C64_run_lemma vgs (g : fgraph R) T (c : bp_ctx R) : groups_ok vgs -> reachable vgs g -> wf_groups (gr_groups g) -> bp_of g T c ->
  forall a m, arrays_of c a -> arrays_of c (with_msgs a m) ->
  let fs := graph_factors 0%R (gr_groups g) in
  let pots := graph_pots (gr_groups g) (ba_log_potentials a) in
  let ev := read_ev (gr_vars_to_starts g) (ba_evidence a) in
  let lens := map snd (sf_edges fs) in
  forall B P D K, (0 <= T)%R -> moderate fs pots (length (enum_factors (gr_groups g))) ev B P D K ->
  supported lens -> above_floor lens (ba_ftov_msgs a) -> above_floor lens m ->
  forall L, depth_within fs L -> forall n n', L <= n -> L <= n' -> run_bp c (with_msgs a m) n' 0%R = run_bp c a n 0%R.
Proof.
  intros Hok Hr Hwf Hbp a m Ha Ha' fs pots ev lens B P D K HT M Hsup Hfl Hfl' L HL n n' Hn Hn'.
  pose proof (C64_converges_lemma vgs g T c Hok Hr Hwf Hbp a (with_msgs a m) Ha Ha' B P D K HT M Hsup Hfl Hfl' eq_refl eq_refl L HL n n' Hn Hn') as E.
  destruct (C31_zero_lemma c (with_msgs a m) 0%R n') as [_ [E1 E2]]. destruct (C31_zero_lemma c a 0%R n) as [_ [E3 E4]].
  destruct (run_bp c (with_msgs a m) n' 0%R) as [l1 m1 e1]. destruct (run_bp c a n 0%R) as [l2 m2 e2]. cbn [ba_log_potentials ba_ftov_msgs ba_evidence with_msgs] in *. congruence.
Qed.
Lemma zeros_floor lens n : above_floor lens (repeat 0%R n).
Proof.
  intros e _. right. assert (Z : forall x, In x (segment lens (repeat 0%R n) e) -> x = 0%R).
  { intros x Hx. unfold segment, slice in Hx. apply (repeat_spec n 0%R). rewrite <- (firstn_skipn (off lens e) (repeat 0%R n)), in_app_iff. right.
    rewrite <- (firstn_skipn (off lens e + nth e lens 0 - off lens e) (skipn _ _)), in_app_iff. now left. }
  unfold neg_inf. destruct (segment lens (repeat 0%R n) e) as [|y l] eqn:E; [cbn; lra|].
  rewrite (Z (rmaxs (y :: l)) (rmaxs_In (y :: l) ltac:(discriminate))). lra.
Qed.
Lemma small_zeros {A} (fs : list (sfactor A)) T pots ev P B N n : small fs T pots ev (fun _ _ _ => 0%R) P B 0 N -> small fs T pots ev (read_msgs fs (repeat 0%R n)) P B 0 N.
Proof.
  intros [H1 [H2 [H3 [H4 [H5 H6]]]]]. split; [exact H1|]. split; [exact H2|]. split; [exact H3|]. split; [exact H4|]. split; [|exact H6].
  intros f u s s' _ _ _ _. unfold read_msgs. rewrite !nth_repeat. lra.
Qed.
Section Exact.
  Context (vgs : list vgroup) (g : fgraph R) (T : R) (c : bp_ctx R).
  Hypothesis Hok : groups_ok vgs.
  Hypothesis Hr : reachable vgs g.
  Hypothesis Hwf : wf_groups (gr_groups g).
  Hypothesis Hbp : bp_of g T c.
  Context (a : bp_arrays R).
  Hypothesis Ha : arrays_of c a.
  Let fs := graph_factors 0%R (gr_groups g).
  Let pots := graph_pots (gr_groups g) (ba_log_potentials a).
  Let ev := read_ev (gr_vars_to_starts g) (ba_evidence a).
  Let lens := map snd (sf_edges fs).
  Context (B P : R) (D K : nat).
  Hypothesis HT : (0 <= T)%R.
  Hypothesis M : moderate fs pots (length (enum_factors (gr_groups g))) ev B P D K.
  Hypothesis Hsup : supported lens.
  Hypothesis Hfl : above_floor lens (ba_ftov_msgs a).
  Let z := with_msgs a (repeat 0%R (length (ba_ftov_msgs a))).
  Lemma zeros_arrays : arrays_of c z.
  Proof. destruct Ha as [A1 [A2 A3]]. split; [exact A1|]. split; [cbn; now rewrite repeat_length|exact A3]. Qed.
  Lemma from_zeros L n : depth_within fs L -> L <= n -> run_bp c a n 0%R = run_bp c z (Nat.max n (length fs)) 0%R.
  Proof.
    intros HL Hn. symmetry. apply (C64_run_lemma vgs g T c Hok Hr Hwf Hbp a _ Ha zeros_arrays B P D K HT M Hsup Hfl (zeros_floor _ _) L HL n _ Hn). lia.
  Qed.
End Exact.

Lemma C64_max_lemma vgs (g : fgraph R) (c : bp_ctx R) : groups_ok vgs -> reachable vgs g -> wf_groups (gr_groups g) -> bp_of g 0%R c ->
  forall a, arrays_of c a ->
  let fs := graph_factors 0%R (gr_groups g) in
  let pots := graph_pots (gr_groups g) (ba_log_potentials a) in
  let ev := read_ev (gr_vars_to_starts g) (ba_evidence a) in
  let lens := map snd (sf_edges fs) in
  (forall gr k, In gr vgs -> In k (vg_num_states gr) -> 0 < k) ->
  (forall f, f < length fs -> 0 < arity fs f) ->
  forall B P D K P' B' N', moderate fs pots (length (enum_factors (gr_groups g))) ev B P D K ->
  small fs 0 pots ev (fun _ _ _ => 0%R) P' B' 0 N' ->
  supported lens -> above_floor lens (ba_ftov_msgs a) ->
  forall L n, depth_within fs L -> L <= n ->
  exists b, get_beliefs c (run_bp c a n 0%R) = Ok b /\ map fst b = vgs /\
    forall gr, In gr vgs -> exists d, dget vg_eqb gr b = Some d /\ per_state_shape gr d /\
      forall i x, nth_error (vg_variables gr) i = Some x -> exists (mm : nat -> R) (k : R),
        (forall s, s < snd x -> max_marginal fs pots ev (all_vars vgs) x s (mm s)) /\
        row gr d i = map (fun s => Fin (mm s + k)%R) (seq 0 (snd x)) ++ repeat NInf (state_axis gr i - snd x).
Proof.
  intros Hok Hr Hwf Hbp a Ha fs pots ev lens Hpos Har B P D K P' B' N' M Hs Hsup Hfl L n HL Hn.
  rewrite (from_zeros vgs g 0%R c Hok Hr Hwf Hbp a Ha B P D K (Rle_refl 0) M Hsup Hfl L n HL Hn).
  apply (C42_small_lemma vgs g c Hok Hr Hwf Hbp _ (zeros_arrays c a Ha) Hpos (depth_acyclic fs L HL) Har B P D K P' B' 0%R N' M (small_zeros _ _ _ _ _ _ _ _ Hs) Hsup (zeros_floor _ _)). lia.
Qed.
Lemma C64_sum_lemma vgs (g : fgraph R) (c : bp_ctx R) : groups_ok vgs -> reachable vgs g -> wf_groups (gr_groups g) -> bp_of g 1%R c ->
  forall a, arrays_of c a ->
  let fs := graph_factors 0%R (gr_groups g) in
  let pots := graph_pots (gr_groups g) (ba_log_potentials a) in
  let ev := read_ev (gr_vars_to_starts g) (ba_evidence a) in
  let lens := map snd (sf_edges fs) in
  (forall gr k, In gr vgs -> In k (vg_num_states gr) -> 0 < k) ->
  (forall gr, In gr vgs -> one_state gr = false) ->
  (forall f, f < length fs -> 0 < arity fs f) ->
  forall B P D K P' B' N', moderate fs pots (length (enum_factors (gr_groups g))) ev B P D K ->
  small fs 1 pots ev (fun _ _ _ => 0%R) P' B' 0 N' ->
  supported lens -> above_floor lens (ba_ftov_msgs a) ->
  forall L n, depth_within fs L -> L <= n ->
  exists b r, get_beliefs c (run_bp c a n 0%R) = Ok b /\ get_marginals b = Ok r /\ map fst r = vgs /\
    forall gr, In gr vgs -> exists d, dget vg_eqb gr r = Some d /\ per_state_shape gr d /\
      forall i x, nth_error (vg_variables gr) i = Some x ->
        row gr d i = map (marginal fs pots 1 ev (all_vars vgs) x) (seq 0 (snd x)) ++ repeat 0%R (state_axis gr i - snd x).
Proof.
  intros Hok Hr Hwf Hbp a Ha fs pots ev lens Hpos Hone Har B P D K P' B' N' M Hs Hsup Hfl L n HL Hn.
  rewrite (from_zeros vgs g 1%R c Hok Hr Hwf Hbp a Ha B P D K Rle_0_1 M Hsup Hfl L n HL Hn).
  apply (C45_small_lemma vgs g c Hok Hr Hwf Hbp _ (zeros_arrays c a Ha) Hpos Hone (depth_acyclic fs L HL) Har B P D K P' B' 0%R N' M (small_zeros _ _ _ _ _ _ _ _ Hs) Hsup (zeros_floor _ _)). lia.
Qed.
Lemma C64_acyclic_lemma {A} (fs : list (sfactor A)) : (acyclic fs -> depth_within fs (length fs)) /\ (forall L, depth_within fs L -> acyclic fs).
Proof. split; [apply acyclic_depth|apply depth_acyclic]. Qed.
