(** * Proofs about variables held by their evidence (C62). *)
From Verif Require Import NumPy Lists VGroup FGraph BPState BP SpecVGroup SpecFGraph SpecFactor SpecAdd SpecWiring SpecState SpecBP SpecText SpecBeliefs SpecClamp.
From Verif Require Import LemFactor LemFGraph LemAdd LemWiring LemGraph LemState LemNum LemNorm LemVtoF LemLogBP LemText LemRun LemIter LemBeliefs LemShift LemStable LemPerm LemLocal LemConv.
From Coq Require Import Reals Lra Lia.
Local Open Scope nat_scope.

Section Text.
  Context {A : Type} (fs : list (sfactor A)) (cl : variable -> option nat) (side : variable -> bool).
  Hypothesis Hcfg : configs_ok fs.
  Hypothesis Hcut : cut_off fs cl side.
  Hypothesis Hposs : possible fs cl side.
  Notation bounded := (LemRun.bounded fs).

  (** Sums of messages to a variable. *)
  Lemma vtof_gap ev m f u s s' D : bounded m -> length (slots_of fs (var_at fs f u)) <= D -> s < snd (var_at fs f u) -> s' < snd (var_at fs f u) ->
    (ev (var_at fs f u) s - ev (var_at fs f u) s' - 1000 * INR D <= var_to_fac fs ev m f u s - var_to_fac fs ev m f u s')%R.
  Proof.
    intros Hm HD Hs Hs'. unfold var_to_fac. set (l := filter _ _).
    assert (X : forall z, z < snd (var_at fs f u) -> forall fu, In fu l -> (-1000 <= m (fst fu) (snd fu) z <= 0)%R).
    { intros z Hz [h v] Hi. apply filter_In in Hi. destruct Hi as [Hi _]. apply In_slots_of in Hi. destruct Hi as [H1 [H2 H3]]. cbn [fst snd]. apply Hm; [exact H1|exact H2|now rewrite H3]. }
    pose proof (rsum_bounds (fun fu => m (fst fu) (snd fu) s) l 1000 D ltac:(lra) (Nat.le_trans _ _ _ (filter_length_le _ _) HD) (fun fu Hi => proj1 (X s Hs fu Hi))) as L1.
    pose proof (rsum_nonpos (fun fu => m (fst fu) (snd fu) s') l (fun fu Hi => proj2 (X s' Hs' fu Hi))) as L2. lra.
  Qed.

  Definition obeysb (f c : nat) : bool :=
    forallb (fun u => match cl (var_at fs f u) with Some s => config_at_slot fs f c u =? s | None => true end) (seq 0 (arity fs f)).
  Lemma obeysb_iff f c : obeysb f c = true <-> obeys fs cl f c.
  Proof.
    unfold obeysb, obeys. rewrite forallb_forall. split.
    - intros H u s Hu E. specialize (H u ltac:(apply in_seq; lia)). rewrite E in H. now apply Nat.eqb_eq.
    - intros H u Hu. apply in_seq in Hu. destruct (cl (var_at fs f u)) as [s|] eqn:E; [|reflexivity]. apply Nat.eqb_eq. apply H; [lia|exact E].
  Qed.
  Lemma forallb_exists_false {X} (p : X -> bool) l : forallb p l = false -> exists x, In x l /\ p x = false.
  Proof.
    induction l as [|x l IH]; [discriminate|]. cbn [forallb]. destruct (p x) eqn:E; [|exists x; split; [left; reflexivity|exact E]].
    intros H. destruct (IH H) as [y [Hy Ey]]. exists y. split; [right; exact Hy|exact Ey].
  Qed.
  Lemma rsum_minus {X} (h k : X -> R) l : (rsum (map h l) - rsum (map k l) = rsum (map (fun x => h x - k x) l))%R.
  Proof. induction l as [|x l IH]; [cbn; ring|]. cbn [map]. rewrite !LemNum.rsum_cons, <- IH. ring. Qed.
  Lemma rsum_one_big {X} (h : X -> R) l y b n : In y l -> (0 <= b)%R -> length l <= n -> (forall x, In x l -> (- b <= h x)%R) -> (h y - INR n * b <= rsum (map h l))%R.
  Proof.
    intros Hy Hb Hn H. apply in_split in Hy. destruct Hy as [l1 [l2 ->]]. rewrite map_app. cbn [map]. rewrite LemNum.rsum_app, LemNum.rsum_cons.
    pose proof (rsum_bounds h l1 b (length l1) Hb (le_n _) (fun x Hx => H x (in_or_app _ _ _ (or_introl Hx)))) as L1.
    pose proof (rsum_bounds h l2 b (length l2) Hb (le_n _) (fun x Hx => H x (in_or_app l1 (y :: l2) x (or_intror (or_intror Hx))))) as L2.
    rewrite app_length in Hn. cbn [length] in Hn. assert (L : (INR (length l1) + INR (length l2) <= INR n)%R) by (rewrite <- plus_INR; apply le_INR; lia).
    pose proof (Rmult_le_compat_r b _ _ Hb L) as L3. lra.
  Qed.

  Section Held.
    Context (pots : nat -> nat -> R) (ev : variable -> nat -> R) (G B W : R) (D K : nat).
    Hypothesis Hheld : held fs cl side pots ev G B W D K.
    (** A configuration that obeys outweighs one that does not. *)
    Lemma outweighs m f u t c c0 : bounded m -> f < length fs -> u < arity fs f -> side (var_at fs f u) = true -> t < snd (var_at fs f u) ->
      In c (choices fs f u t) -> In c0 (choices fs f u t) -> obeys fs cl f c0 -> obeysb f c = false ->
      (score_but fs pots (var_to_fac fs ev m) f c u <= score_but fs pots (var_to_fac fs ev m) f c0 u)%R.
    Proof.
      intros Hm Hf Hu Hsu Ht Hc Hc0 Ho Hno. destruct Hheld as [H1 [H2 [H3 [H4 [H5 [H6 H7]]]]]]. destruct Hcut as [Q1 Q2].
      assert (Htf : touches fs side f) by (exists u; auto).
      apply choice_iff in Hc, Hc0. destruct Hc as [Hc Ec], Hc0 as [Hc0 Ec0].
      assert (Hw : exists w s, w < arity fs f /\ cl (var_at fs f w) = Some s /\ config_at_slot fs f c w <> s).
      { unfold obeysb in Hno. apply forallb_exists_false in Hno. destruct Hno as [w [Hw Hf2]]. apply in_seq in Hw. destruct (cl (var_at fs f w)) as [s|] eqn:E; [|discriminate].
        exists w, s. split; [lia|]. split; [exact E|]. now apply Nat.eqb_neq. }
      destruct Hw as [w [s [Hw [Ew Hne]]]]. unfold score_but. set (v := var_to_fac fs ev m). set (l := filter _ _).
      set (h := fun x => (v f x (config_at_slot fs f c0 x) - v f x (config_at_slot fs f c x))%R).
      assert (Hl : forall x, In x l -> x < arity fs f) by (intros x Hx; apply filter_In in Hx; destruct Hx as [Hx _]; apply in_seq in Hx; lia).
      pose proof (pos_INR D) as PD. set (b := (2 * B + 1000 * INR D)%R) in *.
      assert (Hst : forall k x, k < length (sf_configs (factor_at fs f)) -> x < arity fs f -> config_at_slot fs f k x < snd (var_at fs f x)) by (intros k x Hk Hx; now apply config_ok).
      assert (Hb : forall x, In x l -> (- b <= h x)%R).
      { intros x Hx. apply Hl in Hx. unfold h. destruct (Q2 f x Hf Htf Hx) as [Hs|Hs].
        - pose proof (vtof_gap ev m f x _ _ D Hm (H4 _) (Hst c0 x Hc0 Hx) (Hst c x Hc Hx)) as L. pose proof (H2 _ _ Hs (var_in_edges fs f x Hf Hx) (Hst c0 x Hc0 Hx)). pose proof (H2 _ _ Hs (var_in_edges fs f x Hf Hx) (Hst c x Hc Hx)).
          unfold b. fold v in L. lra.
        - destruct (cl (var_at fs f x)) as [sx|] eqn:Ex; [|congruence]. assert (E0 : config_at_slot fs f c0 x = sx) by (now apply Ho).
          destruct (Nat.eq_dec (config_at_slot fs f c x) sx) as [E|E]; [rewrite E0, E; unfold b; lra|].
          pose proof (vtof_gap ev m f x _ _ D Hm (H4 _) (Hst c0 x Hc0 Hx) (Hst c x Hc Hx)) as L. fold v in L. rewrite E0 in *.
          destruct (H1 _ _ Ex (var_in_edges fs f x Hf Hx)) as [_ Hg]. specialize (Hg _ (Hst c x Hc Hx) E). pose proof (pos_INR K) as PK.
          assert (0 <= INR K * b)%R by (apply Rmult_le_pos; unfold b; lra). unfold b in *.
          assert (HW : (0 <= W)%R) by (pose proof (H3 f c c Hf Htf Hc Hc); lra). lra. }
      assert (Hwl : In w l).
      { apply filter_In. split; [apply in_seq; lia|]. apply negb_true_iff, Nat.eqb_neq. intros ->. rewrite (Q1 _ Hsu) in Ew. discriminate. }
      assert (Hbig : (G - 1000 * INR D <= h w)%R).
      { unfold h. pose proof (vtof_gap ev m f w _ _ D Hm (H4 _) (Hst c0 w Hc0 Hw) (Hst c w Hc Hw)) as L. fold v in L. assert (E0 : config_at_slot fs f c0 w = s) by (now apply Ho).
        rewrite E0 in *. destruct (H1 _ _ Ew (var_in_edges fs f w Hf Hw)) as [_ Hg]. specialize (Hg _ (Hst c w Hc Hw) Hne). lra. }
      pose proof (rsum_one_big h l w b K Hwl ltac:(unfold b; lra)
        (Nat.le_trans _ _ _ (filter_length_le _ _) (Nat.le_trans _ _ _ (Nat.eq_le_incl _ _ (seq_length _ _)) (H5 f Hf Htf))) Hb) as L.
      assert (E : (rsum (map (fun x => v f x (config_at_slot fs f c0 x)) l) - rsum (map (fun x => v f x (config_at_slot fs f c x)) l) = rsum (map h l))%R) by (apply rsum_minus).
      pose proof (H3 f c0 c Hf Htf Hc0 Hc) as HW. clearbody h b. lra.
    Qed.
    Lemma only_obeying m f u t : bounded m -> f < length fs -> u < arity fs f -> side (var_at fs f u) = true -> t < snd (var_at fs f u) ->
      fac_to_var_max fs pots (var_to_fac fs ev m) f u t = rmaxs (map (fun c => score_but fs pots (var_to_fac fs ev m) f c u) (filter (obeysb f) (choices fs f u t))).
    Proof.
      intros Hm Hf Hu Hsu Ht. unfold fac_to_var_max. destruct (Hposs f u t Hf Hu Hsu Ht) as [c0 [Hc0 Ho]].
      assert (I0 : In c0 (filter (obeysb f) (choices fs f u t))) by (apply filter_In; split; [exact Hc0|now apply obeysb_iff]).
      apply Rle_antisym; apply rmaxs_lub.
      - intros E. apply map_eq_nil in E. rewrite E in Hc0. destruct Hc0.
      - intros x Hx. apply in_map_iff in Hx. destruct Hx as [c [<- Hc]]. destruct (obeysb f c) eqn:E.
        + apply rmaxs_ub. apply (in_map (fun c => score_but fs pots (var_to_fac fs ev m) f c u)). now apply filter_In.
        + eapply Rle_trans; [apply (outweighs m f u t c c0); assumption|]. apply rmaxs_ub. now apply (in_map (fun c => score_but fs pots (var_to_fac fs ev m) f c u)).
      - intros E. apply map_eq_nil in E. rewrite E in I0. destruct I0.
      - intros x Hx. apply in_map_iff in Hx. destruct Hx as [c [<- Hc]]. apply filter_In in Hc. apply rmaxs_ub. now apply (in_map (fun c => score_but fs pots (var_to_fac fs ev m) f c u)).
    Qed.
  End Held.

  (** Two runs that agree on the set. *)
  Section Both.
    Context (pots pots' : nat -> nat -> R) (ev ev' : variable -> nat -> R) (G B W G' B' W' : R) (D K D' K' : nat).
    Hypothesis Hh : held fs cl side pots ev G B W D K.
    Hypothesis Hh' : held fs cl side pots' ev' G' B' W' D' K'.
    Hypothesis Hpot : forall f c, f < length fs -> touches fs side f -> c < length (sf_configs (factor_at fs f)) -> obeys fs cl f c -> pots' f c = pots f c.
    Hypothesis Hev : forall x s, side x = true -> In x (sf_edges fs) -> s < snd x -> ev' x s = ev x s.
    Hypothesis Hpos : forall f u, f < length fs -> u < arity fs f -> 0 < snd (var_at fs f u).
    Definition agree (m m' : msg) : Prop := forall f u s, f < length fs -> u < arity fs f -> side (var_at fs f u) = true -> s < snd (var_at fs f u) -> m' f u s = m f u s.
    Lemma agree_vtof m m' f w s : agree m m' -> f < length fs -> w < arity fs f -> side (var_at fs f w) = true -> s < snd (var_at fs f w) -> var_to_fac fs ev' m' f w s = var_to_fac fs ev m f w s.
    Proof.
      intros Hm Hf Hw Hs Ht. unfold var_to_fac. f_equal; [apply Hev; [exact Hs|now apply var_in_edges|exact Ht]|].
      apply LemNum.rsum_ext. intros [h v] Hi. apply filter_In in Hi. destruct Hi as [Hi _]. apply In_slots_of in Hi. destruct Hi as [I1 [I2 I3]]. cbn [fst snd]. apply Hm; [exact I1|exact I2|now rewrite I3|now rewrite I3].
    Qed.
    Lemma agree_ftov m m' f u : bounded m -> bounded m' -> agree m m' -> f < length fs -> u < arity fs f -> side (var_at fs f u) = true ->
      exists k, forall t, t < snd (var_at fs f u) -> fac_to_var_max fs pots' (var_to_fac fs ev' m') f u t = (fac_to_var_max fs pots (var_to_fac fs ev m) f u t + k)%R.
    Proof.
      intros Bm Bm' Hm Hf Hu Hs. set (v := var_to_fac fs ev m). set (v' := var_to_fac fs ev' m').
      set (kk := fun w => match cl (var_at fs f w) with Some s => (v' f w s - v f w s)%R | None => 0%R end).
      exists (rsum (map kk (filter (fun w => negb (w =? u)) (seq 0 (arity fs f))))). intros t Ht.
      assert (Htf : touches fs side f) by (exists u; auto).
      unfold v, v'. rewrite (only_obeying pots ev G B W D K Hh m f u t Bm Hf Hu Hs Ht), (only_obeying pots' ev' G' B' W' D' K' Hh' m' f u t Bm' Hf Hu Hs Ht). fold v v'.
      rewrite <- rmaxs_shift.
      - f_equal. apply map_ext_in. intros c Hc. apply filter_In in Hc. destruct Hc as [Hc Ho]. apply choice_iff in Hc. destruct Hc as [Hc _]. apply obeysb_iff in Ho.
        unfold score_but. rewrite (Hpot f c Hf Htf Hc Ho). rewrite Rplus_assoc, <- LemNum.rsum_plus. f_equal. apply LemNum.rsum_ext. intros w Hw. apply filter_In in Hw. destruct Hw as [Hw _]. apply in_seq in Hw.
        unfold kk. destruct (cl (var_at fs f w)) as [s|] eqn:E.
        + rewrite (Ho w s ltac:(lia) E). lra.
        + destruct (proj2 Hcut f w Hf Htf ltac:(lia)) as [S|S]; [|congruence]. rewrite Rplus_0_r. apply agree_vtof; [exact Hm|exact Hf|lia|exact S|]. apply config_ok; [exact Hcfg|exact Hf|exact Hc|lia].
      - destruct (Hposs f u t Hf Hu Hs Ht) as [c0 [Hc0 Ho]]. assert (I0 : In c0 (filter (obeysb f) (choices fs f u t))) by (apply filter_In; split; [exact Hc0|now apply obeysb_iff]).
        intros E. try apply map_eq_nil in E. rewrite E in I0. destruct I0.
    Qed.
    Lemma agree_normal m m' f u k : f < length fs -> u < arity fs f -> (forall t, t < snd (var_at fs f u) -> m' f u t = (m f u t + k)%R) ->
      forall s, s < snd (var_at fs f u) -> normal fs m' f u s = normal fs m f u s.
    Proof.
      intros Hf Hu E s Hs. unfold normal. f_equal. rewrite E by exact Hs.
      rewrite (map_ext_in (m' f u) (fun s => (m f u s + k)%R)) by (intros x Hx; apply in_seq in Hx; apply E; lia).
      rewrite rmaxs_shift; [lra|]. specialize (Hpos f u Hf Hu). destruct (snd (var_at fs f u)); [lia|discriminate].
    Qed.
    Lemma agree_text d m m' n : agree m m' -> agree (text_bp fs pots 0 d ev m n) (text_bp fs pots' 0 d ev' m' n).
    Proof.
      intros Hm. induction n as [|n IH]; intros f u s Hf Hu Hsd Hs.
      - apply (agree_normal m m' f u 0%R Hf Hu); [|exact Hs]. intros t Ht. rewrite (Hm f u t Hf Hu Hsd Ht). lra.
      - change (text_step fs pots' 0 d ev' (text_bp fs pots' 0 d ev' m' n) f u s = text_step fs pots 0 d ev (text_bp fs pots 0 d ev m n) f u s). unfold text_step.
        destruct (agree_ftov _ _ f u (text_bp_bounded fs 0 d pots ev m n) (text_bp_bounded fs 0 d pots' ev' m' n) IH Hf Hu Hsd) as [k Hk].
        apply (agree_normal _ _ f u ((1 - d) * k)%R Hf Hu); [|exact Hs]. intros t Ht. unfold damp, fac_to_var. destruct (Req_EM_T 0 0) as [_|C]; [|now elim C].
        rewrite (IH f u t Hf Hu Hsd Ht), (Hk t Ht). lra.
    Qed.
  End Both.
End Text.

(** ** Runs *)
Lemma gibbs_small b n s t gap : s < n -> t < n -> (b t + gap <= b s)%R -> (0 < gibbs b n t <= exp (- gap))%R.
Proof.
  intros Hs Ht H. unfold gibbs. set (S := rsum _).
  assert (HS : (exp (b s) <= S)%R).
  { pose proof (rsum_one_big (fun t => exp (b t)) (seq 0 n) s 0%R _ ltac:(apply in_seq; lia) (Rle_refl _) (le_n _)
      ltac:(intros x _; pose proof (exp_pos (b x)); lra)) as L. fold S in L. cbn beta in L. lra. }
  pose proof (exp_pos (b s)) as Ps. pose proof (exp_pos (b t)) as Pt. split; [apply Rdiv_lt_0_compat; lra|].
  apply (Rmult_le_reg_r S); [lra|]. unfold Rdiv. rewrite Rmult_assoc, Rinv_l, Rmult_1_r by lra.
  apply Rle_trans with (exp (- gap) * exp (b s))%R; [|apply Rmult_le_compat_l; [apply Rlt_le, exp_pos|exact HS]].
  rewrite <- exp_plus. destruct (Req_dec (b t) (- gap + b s)) as [->|Hne]; [apply Rle_refl|]. apply Rlt_le, exp_increasing. lra.
Qed.

Section Hold.
  Context (vgs : list vgroup) (g : fgraph R) (T : R) (c : bp_ctx R).
  Hypothesis Hok : groups_ok vgs.
  Hypothesis Hr : reachable vgs g.
  Hypothesis Hwf : wf_groups (gr_groups g).
  Hypothesis Hbp : bp_of g T c.
  Context (a : bp_arrays R).
  Hypothesis Ha : arrays_of c a.
  Let fs := graph_factors 0%R (gr_groups g).
  Let pots := graph_pots (gr_groups g) (ba_log_potentials a).
  Let ne := length (enum_factors (gr_groups g)).
  Let lens := map snd (sf_edges fs).
  Let ev := read_ev (gr_vars_to_starts g) (ba_evidence a).
  Let msgs b := read_msgs fs (ba_ftov_msgs b).
  Context (d B P : R) (D K : nat).
  Hypothesis HT : (0 <= T)%R.
  Hypothesis Hd : (0 <= d <= 1)%R.
  Hypothesis M : moderate fs pots ne ev B P D K.
  Hypothesis Hsup : supported lens.
  Hypothesis Hfl : above_floor lens (ba_ftov_msgs a).
  Lemma belief_gap n x s t gap : s < snd x -> t < snd x -> (ev x t + 1000 * INR (length (slots_of fs x)) + gap <= ev x s)%R ->
    (text_belief fs ev (msgs (run_bp c a n d)) x t + gap <= text_belief fs ev (msgs (run_bp c a n d)) x s)%R.
  Proof.
    intros Hs Ht H. pose proof (C29_bounded_lemma vgs g T c a B P D K d Hok Hr Hwf Hbp Ha M HT Hd Hsup Hfl n) as Hm.
    unfold text_belief. set (m := msgs (run_bp c a n d)) in *.
    assert (X : forall z, z < snd x -> forall fu, In fu (slots_of fs x) -> (-1000 <= m (fst fu) (snd fu) z <= 0)%R).
    { intros z Hz [h v] Hi. apply In_slots_of in Hi. destruct Hi as [H1 [H2 H3]]. cbn [fst snd]. destruct (Hm h v H1 H2) as [_ Y]. apply Y. change (z < snd (var_at fs h v)). now rewrite H3. }
    pose proof (rsum_bounds (fun fu => m (fst fu) (snd fu) s) (slots_of fs x) 1000 _ ltac:(lra) (le_n _) (fun fu Hi => proj1 (X s Hs fu Hi))) as L1.
    pose proof (rsum_nonpos (fun fu => m (fst fu) (snd fu) t) (slots_of fs x) (fun fu Hi => proj2 (X t Ht fu Hi))) as L2. lra.
  Qed.
  Lemma C62_held_lemma :
    (forall gr k, In gr vgs -> In k (vg_num_states gr) -> 0 < k) -> (forall gr, In gr vgs -> one_state gr = false) ->
    forall n, exists b q r, get_beliefs c (run_bp c a n d) = Ok b /\ decode_map_states b = Ok q /\ get_marginals b = Ok r /\
    forall gr, In gr vgs -> exists y z, dget vg_eqb gr q = Some y /\ dget vg_eqb gr r = Some z /\
    forall i x s gap, nth_error (vg_variables gr) i = Some x -> s < snd x -> (0 < gap)%R ->
    (forall t, t < snd x -> t <> s -> (ev x t + 1000 * INR (length (slots_of fs x)) + gap <= ev x s)%R) ->
    cell gr y i = [s] /\
    forall t, t < snd x -> t <> s -> exists p, nth_error (row gr z i) t = Some p /\ (0 < p <= exp (- gap))%R.
  Proof.
    intros Hpos Hone n.
    pose proof (LemStable.run_arrays vgs g T c Hok Hr Hwf Hbp d a n Ha) as Hra.
    destruct (C34_lemma vgs g T c Hok Hr Hwf Hbp _ Hra Hpos Hone) as [b [q [Eb [Eq [_ Dq]]]]].
    destruct (C35_lemma vgs g T c Hok Hr Hwf Hbp _ Hra Hpos Hone) as [b2 [r [Eb2 [Er [_ Dr]]]]]. rewrite Eb in Eb2. injection Eb2 as <-.
    exists b, q, r. do 3 (split; [assumption|]). intros gr Hg.
    destruct (Dq gr Hg) as [y [Ey [_ Cy]]]. destruct (Dr gr Hg) as [z [Ez [_ Rz]]]. exists y, z. do 2 (split; [assumption|]).
    intros i x s gap Hi Hs Hgap Hev. split.
    - destruct (Cy i x Hi) as [s' [-> [F1 [F2 _]]]]. f_equal. destruct (Nat.eq_dec s' s) as [E|E]; [exact E|]. exfalso.
      pose proof (belief_gap n x s s' gap Hs F1 (Hev s' F1 E)) as L. pose proof (F2 s Hs) as L2.
      change (text_belief fs ev (msgs (run_bp c a n d)) x s <= text_belief fs ev (msgs (run_bp c a n d)) x s')%R in L2. lra.
    - intros t Ht Hne. eexists. rewrite (Rz i x Hi). split.
      + rewrite nth_error_app1 by (now rewrite map_length, seq_length). rewrite nth_error_map.
        rewrite (nth_error_nth' (seq 0 (snd x)) 0) by (now rewrite seq_length). rewrite seq_nth by exact Ht. reflexivity.
      + apply (gibbs_small _ _ s t gap Hs Ht). exact (belief_gap n x s t gap Hs Ht (Hev t Ht Hne)).
  Qed.
End Hold.

Section Cut.
  Context (vgs : list vgroup) (g : fgraph R) (c : bp_ctx R).
  Hypothesis Hok : groups_ok vgs.
  Hypothesis Hr : reachable vgs g.
  Hypothesis Hwf : wf_groups (gr_groups g).
  Hypothesis Hbp : bp_of g 0%R c.
  Context (a a' : bp_arrays R).
  Hypothesis Ha : arrays_of c a.
  Hypothesis Ha' : arrays_of c a'.
  Let fs := graph_factors 0%R (gr_groups g).
  Let pots b := graph_pots (gr_groups g) (ba_log_potentials b).
  Let ne := length (enum_factors (gr_groups g)).
  Let lens := map snd (sf_edges fs).
  Let ev b := read_ev (gr_vars_to_starts g) (ba_evidence b).
  Let msgs b := read_msgs fs (ba_ftov_msgs b).
  Context (d B P B' P' : R) (D K D' K' : nat).
  Hypothesis Hd : (0 <= d <= 1)%R.
  Hypothesis M : moderate fs (pots a) ne (ev a) B P D K.
  Hypothesis M' : moderate fs (pots a') ne (ev a') B' P' D' K'.
  Hypothesis Hsup : supported lens.
  Hypothesis Hfl : above_floor lens (ba_ftov_msgs a).
  Hypothesis Hfl' : above_floor lens (ba_ftov_msgs a').
  Context (cl : variable -> option nat) (side : variable -> bool) (G Bs W G' Bs' W' : R) (Ds Ks Ds' Ks' : nat).
  Hypothesis Hcut : cut_off fs cl side.
  Hypothesis Hposs : possible fs cl side.
  Hypothesis Hh : held fs cl side (pots a) (ev a) G Bs W Ds Ks.
  Hypothesis Hh' : held fs cl side (pots a') (ev a') G' Bs' W' Ds' Ks'.
  Hypothesis Hpot : forall f k, f < length fs -> touches fs side f -> k < length (sf_configs (factor_at fs f)) -> obeys fs cl f k -> pots a' f k = pots a f k.
  Hypothesis Hev : forall x s, side x = true -> In x (all_vars vgs) -> s < snd x -> ev a' x s = ev a x s.
  Hypothesis Hmsg : forall f u s, f < length fs -> u < arity fs f -> side (var_at fs f u) = true -> s < snd (var_at fs f u) -> msgs a' f u s = msgs a f u s.

  Lemma C62_messages_lemma n f u s : f < length fs -> u < arity fs f -> side (var_at fs f u) = true -> s < snd (var_at fs f u) -> msgs (run_bp c a' n d) f u s = msgs (run_bp c a n d) f u s.
  Proof.
    intros Hf Hu Hsd Hs. destruct (runs_text vgs vgs g g 0%R c c Hok Hr Hwf Hbp Hok Hr Hwf Hbp a a' Ha Ha' d B P B' P' D K D' K' (Rle_refl _) Hd M M' Hsup Hsup Hfl Hfl' n) as [E E'].
    refine (eq_trans (E' f u s Hf Hu Hs) (eq_trans _ (eq_sym (E f u s Hf Hu Hs)))).
    refine (agree_text fs cl side (graph_configs_ok _ Hwf) Hcut Hposs (pots a) (pots a') (ev a) (ev a') G Bs W G' Bs' W' Ds Ks Ds' Ks' Hh Hh' Hpot _ (positive_states fs Hsup) d (msgs a) (msgs a') n Hmsg f u s Hf Hu Hsd Hs).
    intros x i Hx Hi Hlt. apply Hev; [exact Hx| |exact Hlt]. exact (edges_vars vgs g 0%R c Hok Hr Hwf Hbp x Hi).
  Qed.
  Lemma C62_beliefs_lemma :
    (forall gr k, In gr vgs -> In k (vg_num_states gr) -> 0 < k) -> (forall gr, In gr vgs -> one_state gr = false) ->
    forall n, exists b q b' q', get_beliefs c (run_bp c a n d) = Ok b /\ decode_map_states b = Ok q /\
      get_beliefs c (run_bp c a' n d) = Ok b' /\ decode_map_states b' = Ok q' /\
    forall gr, In gr vgs -> exists e y e' y',
      dget vg_eqb gr b = Some e /\ dget vg_eqb gr q = Some y /\ dget vg_eqb gr b' = Some e' /\ dget vg_eqb gr q' = Some y' /\
    forall i x, nth_error (vg_variables gr) i = Some x -> side x = true -> row gr e' i = row gr e i /\ cell gr y' i = cell gr y i.
  Proof.
    intros Hpos Hone n.
    pose proof (LemStable.run_arrays vgs g 0%R c Hok Hr Hwf Hbp d a n Ha) as Hra. pose proof (LemStable.run_arrays vgs g 0%R c Hok Hr Hwf Hbp d a' n Ha') as Hra'.
    destruct (C34_lemma vgs g 0%R c Hok Hr Hwf Hbp _ Hra Hpos Hone) as [b [q [Eb [Eq [_ Dq]]]]].
    destruct (C34_lemma vgs g 0%R c Hok Hr Hwf Hbp _ Hra' Hpos Hone) as [b' [q' [Eb' [Eq' [_ Dq']]]]].
    destruct (C33_lemma vgs g 0%R c Hok Hr Hwf Hbp _ Hra Hpos) as [b2 [Eb2 [_ Db]]]. rewrite Eb in Eb2. injection Eb2 as <-.
    destruct (C33_lemma vgs g 0%R c Hok Hr Hwf Hbp _ Hra' Hpos) as [b2 [Eb2 [_ Db']]]. rewrite Eb' in Eb2. injection Eb2 as <-.
    exists b, q, b', q'. do 4 (split; [assumption|]). intros gr Hg.
    destruct (Dq gr Hg) as [y [Ey [_ Cy]]]. destruct (Dq' gr Hg) as [y' [Ey' [_ Cy']]]. destruct (Db gr Hg) as [e [Ee [_ Re]]]. destruct (Db' gr Hg) as [e' [Ee' [_ Re']]].
    exists e, y, e', y'. do 4 (split; [assumption|]). intros i x Hi Hsd.
    set (bel := text_belief fs (ev a) (msgs (run_bp c a n d)) x). set (bel' := text_belief fs (ev a') (msgs (run_bp c a' n d)) x).
    assert (HB : forall s, s < snd x -> bel' s = bel s).
    { intros s Hs. unfold bel, bel', text_belief. f_equal.
      - apply Hev; [exact Hsd| |exact Hs]. unfold all_vars. apply in_concat. exists (vg_variables gr). split; [now apply in_map|]. now apply nth_error_In in Hi.
      - apply LemNum.rsum_ext. intros [f u] Hfu. apply In_slots_of in Hfu. destruct Hfu as [Hf [Hu E]]. cbn [fst snd]. apply C62_messages_lemma; [exact Hf|exact Hu|now rewrite E|now rewrite E]. }
    split.
    - rewrite (Re i x Hi), (Re' i x Hi). f_equal. apply map_ext_in. intros s Hs. apply in_seq in Hs. f_equal. apply HB. lia.
    - destruct (Cy i x Hi) as [s [-> Fs]]. destruct (Cy' i x Hi) as [s' [-> Fs']]. f_equal. exact (first_best_unique bel bel' (snd x) s s' HB Fs Fs').
  Qed.
End Cut.
