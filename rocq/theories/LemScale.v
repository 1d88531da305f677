(** * Proofs about scaling (C63). *)
From Verif Require Import NumPy Lists VGroup FGraph BPState BP SpecVGroup SpecFGraph SpecFactor SpecAdd SpecWiring SpecState SpecBP SpecText SpecBeliefs SpecConv SpecScale.
From Verif Require Import LemFactor LemFGraph LemAdd LemWiring LemGraph LemState LemNum LemNorm LemVtoF LemLogBP LemText LemRun LemIter LemBeliefs LemShift LemStable LemPerm LemLocal LemConv LemSep.
From Coq Require Import Reals Lra Lia.
Local Open Scope nat_scope.

Lemma rsum_times {X} k (h : X -> R) l : rsum (map (fun x => k * h x)%R l) = (k * rsum (map h l))%R.
Proof. induction l as [|x l IH]; [cbn; ring|]. cbn [map]. rewrite !LemNum.rsum_cons, IH. ring. Qed.
Lemma rmaxs_times {X} k (h : X -> R) l : (0 < k)%R -> rmaxs (map (fun x => k * h x)%R l) = (k * rmaxs (map h l))%R.
Proof.
  intros Hk. destruct l as [|x0 l0]; [cbn; ring|]. set (l := x0 :: l0).
  assert (N : forall h' : X -> R, map h' l <> []) by (intros; discriminate). apply Rle_antisym.
  - apply rmaxs_lub; [apply N|]. intros y Hy. apply in_map_iff in Hy. destruct Hy as [x [<- Hx]]. apply Rmult_le_compat_l; [lra|]. apply rmaxs_ub. now apply in_map.
  - pose proof (rmaxs_In (map h l) (N h)) as Hi. apply in_map_iff in Hi. destruct Hi as [x [E Hx]]. rewrite <- E. apply rmaxs_ub. now apply (in_map (fun x => k * h x)%R).
Qed.
Lemma nth_times k l i : nth i (map (Rmult k) l) 0%R = (k * nth i l 0)%R.
Proof. rewrite <- (map_nth (Rmult k) l 0%R i). now rewrite Rmult_0_r. Qed.

Section Text.
  Context {A : Type} (fs : list (sfactor A)) (pots pots' : nat -> nat -> R) (ev ev' : variable -> nat -> R) (k T d : R).
  Hypothesis Hcfg : configs_ok fs.
  Hypothesis Hk : (0 < k)%R.
  Hypothesis Hpot : forall f c, pots' f c = (k * pots f c)%R.
  Hypothesis Hev : forall x s, ev' x s = (k * ev x s)%R.
  Definition multiple (m m' : msg) : Prop := forall f u s, f < length fs -> u < arity fs f -> s < snd (var_at fs f u) -> m' f u s = (k * m f u s)%R.
  Lemma mult_vtof m m' : multiple m m' -> multiple (var_to_fac fs ev m) (var_to_fac fs ev' m').
  Proof.
    intros Hm f u s Hf Hu Hs. unfold var_to_fac. rewrite Hev, Rmult_plus_distr_l. f_equal. rewrite <- rsum_times. apply LemNum.rsum_ext. intros [h v] Hi.
    apply filter_In in Hi. destruct Hi as [Hi _]. apply In_slots_of in Hi. destruct Hi as [I1 [I2 I3]]. cbn [fst snd]. apply Hm; [exact I1|exact I2|now rewrite I3].
  Qed.
  Lemma mult_score v v' f c u : multiple v v' -> f < length fs -> c < length (sf_configs (factor_at fs f)) -> score_but fs pots' v' f c u = (k * score_but fs pots v f c u)%R.
  Proof.
    intros Hv Hf Hc. unfold score_but. rewrite Hpot, Rmult_plus_distr_l. f_equal. rewrite <- rsum_times. apply LemNum.rsum_ext. intros w Hw. apply filter_In in Hw. destruct Hw as [Hw _]. apply in_seq in Hw.
    apply Hv; [exact Hf|lia|]. apply config_ok; [exact Hcfg|exact Hf|exact Hc|lia].
  Qed.
  Lemma mult_ftov v v' : multiple v v' -> multiple (fac_to_var fs pots T v) (fac_to_var fs pots' (k * T) v').
  Proof.
    intros Hv f u s Hf Hu Hs. unfold fac_to_var.
    assert (E : forall c, In c (choices fs f u s) -> score_but fs pots' v' f c u = (k * score_but fs pots v f c u)%R) by (intros c Hc; apply choice_iff in Hc; now apply mult_score).
    destruct (Req_EM_T T 0) as [->|HT].
    - destruct (Req_EM_T (k * 0) 0) as [_|C]; [|exfalso; apply C; ring]. unfold fac_to_var_max. rewrite <- (rmaxs_times k _ _ Hk). f_equal. apply map_ext_in. exact E.
    - destruct (Req_EM_T (k * T) 0) as [C|_]; [exfalso; apply Rmult_integral in C; lra|]. unfold fac_to_var_soft. rewrite Rmult_assoc. f_equal. f_equal. f_equal.
      apply LemNum.rsum_ext. intros c Hc. rewrite (E c Hc). f_equal. field. split; [exact HT|lra].
  Qed.
  Lemma mult_normal m m' : multiple m m' -> unclipped fs k (normal fs m) -> multiple (normal fs m) (normal fs m').
  Proof.
    intros Hm Hc f u s Hf Hu Hs. destruct (Hc f u s Hf Hu Hs) as [C1 C2]. unfold normal in *. rewrite (Hm f u s Hf Hu Hs).
    rewrite (map_ext_in (m' f u) (fun s => (k * m f u s)%R)) by (intros x Hx; apply in_seq in Hx; apply Hm; [exact Hf|exact Hu|lia]).
    rewrite (rmaxs_times k _ _ Hk). set (z := (m f u s - _)%R) in *. assert (Z : Rmax (-1000) z = z) by (unfold Rmax in *; destruct (Rle_dec (-1000) z); lra).
    rewrite Z in *. replace (k * m f u s - k * _)%R with (k * z)%R by (unfold z; ring). unfold Rmax. destruct (Rle_dec (-1000) (k * z)); lra.
  Qed.
  Lemma mult_text m m' n : multiple m m' -> (forall i, i <= n -> unclipped fs k (text_bp fs pots T d ev m i)) ->
    multiple (text_bp fs pots T d ev m n) (text_bp fs pots' (k * T) d ev' m' n).
  Proof.
    intros Hm. induction n as [|n IH]; intros Hc; [apply mult_normal; [exact Hm|exact (Hc 0 (le_n _))]|].
    assert (IH' := IH ltac:(intros i Hi; apply Hc; lia)).
    change (multiple (text_step fs pots T d ev (text_bp fs pots T d ev m n)) (text_step fs pots' (k * T) d ev' (text_bp fs pots' (k * T) d ev' m' n))). unfold text_step.
    apply mult_normal; [|exact (Hc (S n) (le_n _))]. intros f u s Hf Hu Hs. unfold damp. rewrite (IH' f u s Hf Hu Hs), (mult_ftov _ _ (mult_vtof _ _ IH') f u s Hf Hu Hs). ring.
  Qed.
End Text.

(** Factors with all configurations: the range of messages. *)
Section Range.
  Context {A : Type} (fs : list (sfactor A)) (pots : nat -> nat -> R) (ev : variable -> nat -> R) (T d w : R).
  Hypothesis Hcfg : configs_ok fs.
  Hypothesis Hall : all_configs fs.
  Hypothesis Hpos : forall f u, f < length fs -> u < arity fs f -> 0 < snd (var_at fs f u).
  Hypothesis HT : (0 <= T)%R.
  Hypothesis Hd : (0 <= d <= 1)%R.
  Hypothesis Hp : pots_within fs pots w.
  Lemma range_normal m : msgs_range fs m w -> msgs_range fs (normal fs m) w /\ forall f u s, f < length fs -> u < arity fs f -> s < snd (var_at fs f u) -> (- w <= normal fs m f u s)%R.
  Proof.
    intros Hm. split.
    - intros f u s s' Hf Hu Hs Hs'. unfold normal. pose proof (Hm f u s s' Hf Hu Hs Hs'). set (y := rmaxs _).
      pose proof (Hm f u s s Hf Hu Hs Hs). unfold Rmax. destruct (Rle_dec (-1000) (m f u s - y)), (Rle_dec (-1000) (m f u s' - y)); lra.
    - intros f u s Hf Hu Hs. unfold normal.
      assert (Hi : In (rmaxs (map (m f u) (seq 0 (snd (var_at fs f u))))) (map (m f u) (seq 0 (snd (var_at fs f u))))).
      { apply rmaxs_In. specialize (Hpos f u Hf Hu). destruct (snd (var_at fs f u)); [lia|discriminate]. }
      apply in_map_iff in Hi. destruct Hi as [t [E Ht]]. apply in_seq in Ht. rewrite <- E. pose proof (Hm f u t s Hf Hu ltac:(lia) Hs).
      eapply Rle_trans; [|apply Rmax_r]. lra.
  Qed.
  Lemma range_text m n : msgs_range fs m w -> msgs_range fs (text_bp fs pots T d ev m n) w /\ forall f u s, f < length fs -> u < arity fs f -> s < snd (var_at fs f u) -> (- w <= text_bp fs pots T d ev m n f u s)%R.
  Proof.
    intros Hm. induction n as [|n [IH _]]; [now apply range_normal|].
    change (text_bp fs pots T d ev m (S n)) with (text_step fs pots T d ev (text_bp fs pots T d ev m n)). unfold text_step. apply range_normal.
    intros f u s s' Hf Hu Hs Hs'. unfold damp. pose proof (IH f u s s' Hf Hu Hs Hs') as L1.
    pose proof (fac_to_var_range fs Hcfg Hall Hpos T pots (var_to_fac fs ev (text_bp fs pots T d ev m n)) w f u s s' HT Hp Hf Hu Hs Hs') as L2.
    set (x := fac_to_var _ _ _ _ _ _ s) in *. set (y := fac_to_var _ _ _ _ _ _ s') in *. set (x1 := text_bp _ _ _ _ _ _ _ _ _ s) in *. set (y1 := text_bp _ _ _ _ _ _ _ _ _ s') in *.
    pose proof (Rmult_le_compat_l d _ _ (proj1 Hd) L1) as K1. pose proof (Rmult_le_compat_l (1 - d) _ _ ltac:(lra) L2) as K2.
    replace (d * x1 + (1 - d) * x - (d * y1 + (1 - d) * y))%R with (d * (x1 - y1) + (1 - d) * (x - y))%R by ring. lra.
  Qed.
End Range.

(** ** Runs *)
Section Range2.
  Context (vgs : list vgroup) (g : fgraph R) (T : R) (c : bp_ctx R).
  Hypothesis Hok : groups_ok vgs.
  Hypothesis Hr : reachable vgs g.
  Hypothesis Hwf : wf_groups (gr_groups g).
  Hypothesis Hbp : bp_of g T c.
  Context (a : bp_arrays R).
  Hypothesis Ha : arrays_of c a.
  Let fs := graph_factors 0%R (gr_groups g).
  Let pots := graph_pots (gr_groups g) (ba_log_potentials a).
  Let ne := length (enum_factors (gr_groups g)).
  Let lens := map snd (sf_edges fs).
  Let ev := read_ev (gr_vars_to_starts g) (ba_evidence a).
  Let msgs b := read_msgs fs (ba_ftov_msgs b).
  Context (d B P : R) (D K : nat).
  Hypothesis HT : (0 <= T)%R.
  Hypothesis Hd : (0 <= d <= 1)%R.
  Hypothesis M : moderate fs pots ne ev B P D K.
  Hypothesis Hsup : supported lens.
  Hypothesis Hfl : above_floor lens (ba_ftov_msgs a).
  Lemma C63_range_lemma w : all_configs fs -> pots_within fs pots w -> msgs_range fs (msgs a) w ->
    forall n f u s, f < length fs -> u < arity fs f -> s < snd (var_at fs f u) -> (- w <= msgs (run_bp c a n d) f u s <= 0)%R.
  Proof.
    intros Hall Hp Hm n f u s Hf Hu Hs. split.
    - refine (Rle_trans _ _ _ _ (Req_le _ _ (eq_sym (run_text vgs g T c Hok Hr Hwf Hbp a Ha d B P D K HT Hd M Hsup Hfl n f u s Hf Hu Hs)))).
      exact (proj2 (range_text fs pots ev T d w (graph_configs_ok _ Hwf) Hall (positive_states fs Hsup) HT Hd Hp (msgs a) n Hm) f u s Hf Hu Hs).
    - exact (proj2 (proj2 (C29_bounded_lemma vgs g T c a B P D K d Hok Hr Hwf Hbp Ha M HT Hd Hsup Hfl n f u Hf Hu) s Hs)).
  Qed.
End Range2.

Section Scale.
  Context (vgs : list vgroup) (g : fgraph R) (T k : R) (c c' : bp_ctx R).
  Hypothesis Hk : (0 < k)%R.
  Hypothesis Hok : groups_ok vgs.
  Hypothesis Hr : reachable vgs g.
  Hypothesis Hwf : wf_groups (gr_groups g).
  Hypothesis Hbp : bp_of g T c.
  Hypothesis Hbp' : bp_of g (k * T)%R c'.
  Context (a : bp_arrays R).
  Hypothesis Ha : arrays_of c a.
  Hypothesis Ha' : arrays_of c' (times k a).
  Let fs := graph_factors 0%R (gr_groups g).
  Let pots b := graph_pots (gr_groups g) (ba_log_potentials b).
  Let ne := length (enum_factors (gr_groups g)).
  Let lens := map snd (sf_edges fs).
  Let ev b := read_ev (gr_vars_to_starts g) (ba_evidence b).
  Let msgs b := read_msgs fs (ba_ftov_msgs b).
  Context (d B P B' P' : R) (D K D' K' : nat).
  Hypothesis HT : (0 <= T)%R.
  Hypothesis Hd : (0 <= d <= 1)%R.
  Hypothesis M : moderate fs (pots a) ne (ev a) B P D K.
  Hypothesis M' : moderate fs (pots (times k a)) ne (ev (times k a)) B' P' D' K'.
  Hypothesis Hsup : supported lens.
  Hypothesis Hfl : above_floor lens (ba_ftov_msgs a).
  Hypothesis Hfl' : above_floor lens (ba_ftov_msgs (times k a)).
  Context (n : nat).
  Hypothesis Hun : forall i, i <= n -> unclipped fs k (msgs (run_bp c a i d)).

  Lemma C63_messages_lemma f u s : f < length fs -> u < arity fs f -> s < snd (var_at fs f u) -> msgs (run_bp c' (times k a) n d) f u s = (k * msgs (run_bp c a n d) f u s)%R.
  Proof.
    intros Hf Hu Hs. assert (HT' : (0 <= k * T)%R) by (apply Rmult_le_pos; lra).
    pose proof (fun i => LemSep.run_text vgs g T c Hok Hr Hwf Hbp a Ha d B P D K HT Hd M Hsup Hfl i) as E.
    pose proof (LemSep.run_text vgs g (k * T)%R c' Hok Hr Hwf Hbp' (times k a) Ha' d B' P' D' K' HT' Hd M' Hsup Hfl' n) as E'.
    refine (eq_trans (E' f u s Hf Hu Hs) (eq_trans _ (f_equal (Rmult k) (eq_sym (E n f u s Hf Hu Hs))))).
    refine (mult_text fs (pots a) (pots (times k a)) (ev a) (ev (times k a)) k T d (graph_configs_ok _ Hwf) Hk _ _ (msgs a) (msgs (times k a)) n _ _ f u s Hf Hu Hs).
    - intros h j. unfold pots, graph_pots, read_pots. destruct (h <? _); [apply nth_times|ring].
    - intros x t. unfold ev, read_ev. apply nth_times.
    - intros h v t _ _ _. unfold msgs, read_msgs. apply nth_times.
    - intros i Hi h v t Hh Hv Ht. destruct (Hun i Hi h v t Hh Hv Ht) as [U1 U2]. pose proof (E i h v t Hh Hv Ht) as Ei. cbn beta in Ei.
      change (msgs (run_bp c a i d) h v t = text_bp fs (pots a) T d (ev a) (msgs a) i h v t) in Ei. now rewrite <- Ei.
  Qed.
  Lemma C63_beliefs_lemma :
    (forall gr j, In gr vgs -> In j (vg_num_states gr) -> 0 < j) -> (forall gr, In gr vgs -> one_state gr = false) ->
    exists b q b' q' r', get_beliefs c (run_bp c a n d) = Ok b /\ decode_map_states b = Ok q /\
      get_beliefs c' (run_bp c' (times k a) n d) = Ok b' /\ decode_map_states b' = Ok q' /\ get_marginals b' = Ok r' /\
    forall gr, In gr vgs -> exists e y e' y' z',
      dget vg_eqb gr b = Some e /\ dget vg_eqb gr q = Some y /\ dget vg_eqb gr b' = Some e' /\ dget vg_eqb gr q' = Some y' /\ dget vg_eqb gr r' = Some z' /\
    forall i x, nth_error (vg_variables gr) i = Some x -> exists bel pad, row gr e i = map (fun s => Fin (bel s)) (seq 0 (snd x)) ++ repeat NInf pad /\
      row gr e' i = map (fun s => Fin (k * bel s)%R) (seq 0 (snd x)) ++ repeat NInf pad /\
      row gr z' i = map (gibbs (fun s => k * bel s)%R (snd x)) (seq 0 (snd x)) ++ repeat 0%R pad /\
      cell gr y' i = cell gr y i.
  Proof.
    intros Hpos Hone.
    pose proof (LemStable.run_arrays vgs g T c Hok Hr Hwf Hbp d a n Ha) as Hra. pose proof (LemStable.run_arrays vgs g (k * T)%R c' Hok Hr Hwf Hbp' d (times k a) n Ha') as Hra'.
    destruct (C34_lemma vgs g T c Hok Hr Hwf Hbp _ Hra Hpos Hone) as [b [q [Eb [Eq [_ Dq]]]]].
    destruct (C34_lemma vgs g (k * T)%R c' Hok Hr Hwf Hbp' _ Hra' Hpos Hone) as [b' [q' [Eb' [Eq' [_ Dq']]]]].
    destruct (C33_lemma vgs g T c Hok Hr Hwf Hbp _ Hra Hpos) as [b2 [Eb2 [_ Db]]]. rewrite Eb in Eb2. injection Eb2 as <-.
    destruct (C33_lemma vgs g (k * T)%R c' Hok Hr Hwf Hbp' _ Hra' Hpos) as [b2 [Eb2 [_ Db']]]. rewrite Eb' in Eb2. injection Eb2 as <-.
    destruct (C35_lemma vgs g (k * T)%R c' Hok Hr Hwf Hbp' _ Hra' Hpos Hone) as [b2 [r' [Eb2 [Er' [_ Dr']]]]]. rewrite Eb' in Eb2. injection Eb2 as <-.
    exists b, q, b', q', r'. do 5 (split; [assumption|]). intros gr Hg.
    destruct (Dq gr Hg) as [y [Ey [_ Cy]]]. destruct (Dq' gr Hg) as [y' [Ey' [_ Cy']]]. destruct (Db gr Hg) as [e [Ee [_ Re]]]. destruct (Db' gr Hg) as [e' [Ee' [_ Re']]]. destruct (Dr' gr Hg) as [z' [Ez' [_ Rz']]].
    exists e, y, e', y', z'. do 5 (split; [assumption|]). intros i x Hi.
    set (bel := text_belief fs (ev a) (msgs (run_bp c a n d)) x). set (bel' := text_belief fs (ev (times k a)) (msgs (run_bp c' (times k a) n d)) x).
    assert (HB : forall s, s < snd x -> bel' s = (k * bel s)%R).
    { intros s Hs. unfold bel, bel', text_belief. rewrite Rmult_plus_distr_l. f_equal; [unfold ev, read_ev; apply nth_times|].
      rewrite <- rsum_times. apply LemNum.rsum_ext. intros [f u] Hfu. apply In_slots_of in Hfu. destruct Hfu as [Hf [Hu E]]. cbn [fst snd]. apply C63_messages_lemma; [exact Hf|exact Hu|now rewrite E]. }
    exists bel, (state_axis gr i - snd x). split; [exact (Re i x Hi)|]. split; [|split].
    - rewrite (Re' i x Hi). f_equal. apply map_ext_in. intros s Hs. apply in_seq in Hs. f_equal. apply HB. lia.
    - rewrite (Rz' i x Hi). f_equal. apply map_ext_in. intros s Hs. apply in_seq in Hs. change (gibbs bel' (snd x) s = gibbs (fun s => k * bel s)%R (snd x) s).
      unfold gibbs. rewrite HB by lia. f_equal. f_equal. apply map_ext_in. intros t Ht. apply in_seq in Ht. now rewrite HB by lia.
    - destruct (Cy i x Hi) as [s [-> Fs]]. destruct (Cy' i x Hi) as [s' [-> Fs']]. f_equal. refine (first_best_unique (fun s => k * bel s)%R bel' (snd x) s s' HB _ Fs').
      destruct Fs as [F1 [F2 F3]]. split; [exact F1|]. split; [intros t Ht; apply Rmult_le_compat_l; [lra|now apply F2]|intros t Ht; apply Rmult_lt_compat_l; [exact Hk|now apply F3]].
  Qed.
End Scale.
