(** * Proofs about runs on attractive models (C66). *)
From Verif Require Import NumPy Lists VGroup FGraph BPState BP SpecVGroup SpecFGraph SpecFactor SpecAdd SpecWiring SpecState SpecBP SpecText SpecBeliefs SpecStable SpecConv SpecTree SpecMono.
From Verif Require Import LemFactor LemFGraph LemAdd LemWiring LemGraph LemState LemNum LemText LemRun LemIter LemBeliefs LemStable LemShift LemConv LemFix LemSep LemSymm LemMono LemEnum LemVtoF.
From Coq Require Import Reals Lra Lia.
Local Open Scope nat_scope.

Section Text.
  Context {A : Type} (fs : list (sfactor A)) (pots : nat -> nat -> R) (T d : R).
  Hypothesis Hcfg : configs_ok fs.
  Hypothesis Hatt : attractive fs pots.
  Hypothesis Hcov : covered fs.
  Hypothesis HT : (0 <= T)%R.
  Hypothesis Hd : (0 <= d <= 1)%R.
  Definition ev_ok (ev ev' : variable -> nat -> R) : Prop :=
    forall f u, f < length fs -> u < arity fs f -> favours (snd (var_at fs f u)) (ev (var_at fs f u)) (ev' (var_at fs f u)).
  Lemma text_favour ev ev' m m' n : ev_ok ev ev' -> msgs_favour fs m m' ->
    (binary fs /\ (T <> 0%R -> distinct fs)) \/ (T = 0%R /\ forall i, i <= n -> inside fs (text_bp fs pots T d ev m i) /\ inside fs (text_bp fs pots T d ev' m' i)) ->
    msgs_favour fs (text_bp fs pots T d ev m n) (text_bp fs pots T d ev' m' n).
  Proof.
    intros He Hm Hb. induction n as [|n IH].
    - destruct Hb as [[Hb _]|[_ Hi]]; [now apply normal_favour|]. destruct (Hi 0 (le_n 0)). now apply normal_favour_inside.
    - assert (IH' : msgs_favour fs (text_bp fs pots T d ev m n) (text_bp fs pots T d ev' m' n)).
      { apply IH. destruct Hb as [Hb|[E Hi]]; [now left|right]. split; [exact E|]. intros i Hle. apply Hi. lia. }
      pose proof (step_var fs _ _ ev ev' He IH') as S1.
      assert (S2 : msgs_favour fs (fac_to_var fs pots T (var_to_fac fs ev (text_bp fs pots T d ev m n))) (fac_to_var fs pots T (var_to_fac fs ev' (text_bp fs pots T d ev' m' n)))).
      { apply fac_favour; auto. intros NT. destruct Hb as [[Hb Hx]|[E _]]; [auto|contradiction]. }
      pose proof (damp_favour fs d _ _ _ _ Hd IH' S2) as S3.
      destruct Hb as [[Hb _]|[_ Hi]]; [now apply normal_favour|]. destruct (Hi (S n) (le_n _)) as [I1 I2]. now apply normal_favour_inside.
  Qed.
  (** ** One model *)
  Hypothesis Hb : binary fs.
  Hypothesis Hx : T <> 0%R -> distinct fs.
  Context (ev : variable -> nat -> R).
  Let step := text_step fs pots T d ev.
  Lemma ev_self : ev_ok ev ev. Proof. intros f u _ _. apply favours_refl. Qed.
  Lemma step_favour m m' : msgs_favour fs m m' -> msgs_favour fs (step m) (step m').
  Proof.
    intros H. apply normal_favour; [exact Hb|]. apply damp_favour; [exact Hd|exact H|]. apply fac_favour; auto. apply step_var; [apply ev_self|exact H].
  Qed.
  Lemma rising m : msgs_favour fs (text_bp fs pots T d ev m 0) (text_bp fs pots T d ev m 1) ->
    forall n k, n <= k -> msgs_favour fs (text_bp fs pots T d ev m n) (text_bp fs pots T d ev m k).
  Proof.
    intros H0. assert (S1 : forall n, msgs_favour fs (text_bp fs pots T d ev m n) (text_bp fs pots T d ev m (S n))).
    { induction n as [|n IH]; [exact H0|]. exact (step_favour _ _ IH). }
    intros n k Hnk. induction Hnk as [|k Hnk IH]; [intros f u _ _; apply favours_refl|].
    intros f u Hf Hu. eapply favours_trans; [exact (IH f u Hf Hu)|exact (S1 k f u Hf Hu)].
  Qed.
  Lemma falling m : msgs_favour fs (text_bp fs pots T d ev m 1) (text_bp fs pots T d ev m 0) ->
    forall n k, n <= k -> msgs_favour fs (text_bp fs pots T d ev m k) (text_bp fs pots T d ev m n).
  Proof.
    intros H0. assert (S1 : forall n, msgs_favour fs (text_bp fs pots T d ev m (S n)) (text_bp fs pots T d ev m n)).
    { induction n as [|n IH]; [exact H0|]. exact (step_favour _ _ IH). }
    intros n k Hnk. induction Hnk as [|k Hnk IH]; [intros f u _ _; apply favours_refl|].
    intros f u Hf Hu. eapply favours_trans; [exact (S1 k f u Hf Hu)|exact (IH f u Hf Hu)].
  Qed.
End Text.

(** ** Limits of monotone bounded sequences *)
Lemma monotone_limit (x : nat -> R) : (forall n, (-1000 <= x n <= 1000)%R) ->
  (forall n k, n <= k -> (x n <= x k)%R) \/ (forall n k, n <= k -> (x k <= x n)%R) -> exists l, Un_cv x l.
Proof.
  intros Hbd [H|H].
  - destruct (growing_cv x) as [l Hl]; [intros n; apply H; lia| |exists l; exact Hl].
    exists 1000%R. intros y [n ->]. apply Hbd.
  - destruct (decreasing_cv x) as [l Hl]; [intros n; apply H; lia| |exists l; exact Hl].
    exists 1000%R. intros y [n ->]. unfold opp_seq. specialize (Hbd n). lra.
Qed.
Definition gap (h : nat -> R) : R := (h 1%nat - h 0%nat)%R.
(** A normalised message of two states is given by the difference of its entries. *)
Lemma normal_entries (h : nat -> R) : (exists s, s < 2 /\ h s = 0%R) -> (forall s, s < 2 -> (-1000 <= h s <= 0)%R) ->
  h 0%nat = Rmin 0 (- gap h) /\ h 1%nat = Rmin 0 (gap h) /\ (-1000 <= gap h <= 1000)%R.
Proof.
  intros [s [Hs E]] H. pose proof (H 0 ltac:(lia)). pose proof (H 1 ltac:(lia)). unfold gap, Rmin.
  destruct s as [|[|]]; [| |lia]; repeat destruct (Rle_dec _ _); repeat split; lra.
Qed.
Lemma Rmin_near a b e : (Rabs (a - b) <= e)%R -> (Rabs (Rmin 0 a - Rmin 0 b) <= e)%R.
Proof. intros H. apply Rabs_between in H. apply Rabs_le. unfold Rmin. repeat destruct (Rle_dec _ _); lra. Qed.
Lemma uniform {P : nat -> nat -> Prop} k : (forall i, i < k -> exists N, forall n, N <= n -> P i n) -> exists N, forall n i, N <= n -> i < k -> P i n.
Proof.
  induction k as [|k IH]; intros H; [exists 0; intros; lia|]. destruct IH as [N HN]; [intros i Hi; apply H; lia|]. destruct (H k (Nat.lt_succ_diag_r k)) as [N' HN'].
  exists (Nat.max N N'). intros n i Hn Hi. destruct (Nat.eq_dec i k) as [->|Hne]; [apply HN'; lia|]. apply HN; lia.
Qed.

Lemma normal_msgs_normal {A} (fs : list (sfactor A)) : (forall f u, f < length fs -> u < arity fs f -> 0 < snd (var_at fs f u)) ->
  forall z, normal_msgs fs (normal fs z).
Proof.
  intros Hp z f u Hf Hu. split.
  - set (k := map (z f u) (seq 0 (snd (var_at fs f u)))). specialize (Hp f u Hf Hu).
    assert (Hi : In (rmaxs k) k) by (apply rmaxs_In; unfold k; destruct (snd (var_at fs f u)); [lia|discriminate]).
    unfold k in Hi at 2. apply in_map_iff in Hi. destruct Hi as [s [Es Hs]]. apply in_seq in Hs. exists s. split; [lia|].
    unfold normal. fold k. rewrite <- Es. rewrite Rminus_diag_eq by reflexivity. apply Rmax_right. lra.
  - intros s Hs. now apply (normal_bounded fs z f u s).
Qed.

(** ** The step does not magnify small differences much *)
Section Fixed.
  Context {A : Type} (fs : list (sfactor A)) (pots : nat -> nat -> R) (T d : R) (ev : variable -> nat -> R).
  Hypothesis Hcfg : configs_ok fs.
  Hypothesis Hcov : covered fs.
  Hypothesis Hpos : forall f u, f < length fs -> u < arity fs f -> 0 < snd (var_at fs f u).
  Hypothesis HT : (0 <= T)%R.
  Hypothesis Hd : (0 <= d <= 1)%R.
  Let step := text_step fs pots T d ev.
  Lemma step_lipschitz : exists L, (0 <= L)%R /\ forall m m' x, (0 <= x)%R -> msgs_near fs m m' x -> msgs_near fs (step m) (step m') (L * x)%R.
  Proof.
    destruct (degrees_exist fs) as [D [K Hdeg]]. exists (d * 2 + (1 - d) * (INR (K - 1) * (INR (D - 1) * 2)))%R.
    pose proof (pos_INR (K - 1)) as HK. pose proof (pos_INR (D - 1)) as HD. split.
    - apply Rplus_le_le_0_compat; [lra|]. apply Rmult_le_pos; [lra|]. apply Rmult_le_pos; lra.
    - intros m m' x Hx N. pose proof (near_spread fs m m' x N) as S1.
      assert (HS : msgs_spread fs (damp d m (fac_to_var fs pots T (var_to_fac fs ev m))) (damp d m' (fac_to_var fs pots T (var_to_fac fs ev m')))
        (d * (2 * x) + (1 - d) * (0 + INR (K - 1) * (0 + INR (D - 1) * (2 * x))))%R).
      { apply damp_spread; [exact Hd|exact S1|]. apply (fac_to_var_spread fs D K); auto.
        - apply Rplus_le_le_0_compat; [lra|]. apply Rmult_le_pos; lra.
        - intros f _. apply spread_zero.
        - apply (var_to_fac_spread fs D K); auto; try lra. intros y _. apply spread_zero. }
      replace ((d * 2 + (1 - d) * (INR (K - 1) * (INR (D - 1) * 2))) * x)%R with (d * (2 * x) + (1 - d) * (0 + INR (K - 1) * (0 + INR (D - 1) * (2 * x))))%R by ring.
      exact (proj2 (normal_spread fs _ _ _ Hpos HS)).
  Qed.
  Lemma step_same m m' : msg_eq fs m m' -> msg_eq fs (step m) (step m').
  Proof.
    intros E. destruct step_lipschitz as [L [HL H]]. apply near_zero. rewrite <- (Rmult_0_r L). apply H; [lra|].
    intros f u s Hf Hu Hs. rewrite (E f u s Hf Hu Hs), Rminus_diag_eq, Rabs_R0 by reflexivity. lra.
  Qed.
  Lemma fixed_stays l n : msg_eq fs (step l) l -> msg_eq fs (text_bp fs pots T d ev l n) l.
  Proof.
    intros E. induction n as [|n IH].
    - eapply msg_eq_trans; [apply (normal_cong fs Hpos), msg_eq_sym, E|]. eapply msg_eq_trans; [|exact E]. apply normal_normal.
    - eapply msg_eq_trans; [|exact E]. apply (step_same _ _ IH).
  Qed.
  (** A limit of a run is a fixed point. *)
  Lemma limit_stays m l : (forall f u s, f < length fs -> u < arity fs f -> s < snd (var_at fs f u) -> Un_cv (fun n => text_bp fs pots T d ev m n f u s) (l f u s)) ->
    msg_eq fs (step l) l.
  Proof.
    intros Hl. destruct step_lipschitz as [L [HL H]].
    assert (Near : forall e, (0 < e)%R -> exists N, forall n, N <= n -> msgs_near fs (text_bp fs pots T d ev m n) l e).
    { intros e He.
      destruct (@uniform (fun i n => forall f u s, f < length fs -> u < arity fs f -> s < snd (var_at fs f u) -> slot_index fs f u s = i -> (Rabs (text_bp fs pots T d ev m n f u s - l f u s) <= e)%R) (total_states fs)) as [N HN].
      { intros i Hi. destruct (index_slot fs i Hi) as [f [u [s [Hf [Hu [Hs Ei]]]]]]. destruct (Hl f u s Hf Hu Hs e He) as [N HN]. exists N. intros n Hn f' u' s' Hf' Hu' Hs' E'.
        rewrite Ei in E'. destruct (LemEnum.slot_index_inj fs f' u' s' f u s) as [-> [-> ->]]; auto. left. exact (HN n Hn). }
      exists N. intros n Hn f u s Hf Hu Hs. apply (HN n (slot_index fs f u s)); auto. now apply slot_index_lt. }
    intros f u s Hf Hu Hs. destruct (Req_dec (step l f u s) (l f u s)) as [Q|Q]; [exact Q|exfalso].
    set (x := Rabs (step l f u s - l f u s)). assert (Hx : (0 < x)%R) by (apply Rabs_pos_lt; lra).
    set (e := (x / (2 * (L + 1)))%R). assert (He : (0 < e)%R) by (apply Rdiv_lt_0_compat; lra).
    destruct (Near e He) as [N HN]. pose proof (HN (S N) (le_S _ _ (le_n N)) f u s Hf Hu Hs) as N1.
    pose proof (H _ _ e ltac:(lra) (HN N (le_n N)) f u s Hf Hu Hs) as N2.
    change (text_bp fs pots T d ev m (S N) f u s) with (step (text_bp fs pots T d ev m N) f u s) in N1.
    assert (Ee : ((L + 1) * e = x / 2)%R) by (unfold e; field; lra).
    assert (x <= e + L * e)%R; [|lra]. unfold x. rewrite Rabs_minus_sym in N2. replace (step l f u s - l f u s)%R with ((step l f u s - step (text_bp fs pots T d ev m N) f u s) + (step (text_bp fs pots T d ev m N) f u s - l f u s))%R by ring.
    eapply Rle_trans; [apply Rabs_triang|]. lra.
  Qed.
End Fixed.

(** ** Decoding *)
Lemma favours_best n b b' s s' : favours n b b' -> first_best b n s -> first_best b' n s' -> s <= s'.
Proof.
  intros H [S1 [S2 S3]] [T1 [T2 T3]]. destruct (Nat.le_gt_cases s s') as [L|L]; [exact L|exfalso].
  specialize (H s s' ltac:(lia) S1). specialize (S3 s' L). specialize (T2 s S1). lra.
Qed.
Lemma rsum_mult_l {X} (h : X -> R) l x : (rsum (map h l) * x)%R = rsum (map (fun i => h i * x)%R l).
Proof. induction l as [|i l IH]; [cbn; lra|]. cbn [map]. rewrite !LemNum.rsum_cons, <- IH. lra. Qed.
Lemma rsum_mono {X} (h k : X -> R) l : (forall x, In x l -> (h x <= k x)%R) -> (rsum (map h l) <= rsum (map k l))%R.
Proof. induction l as [|i l IH]; intros H; [cbn; lra|]. cbn [map]. rewrite !LemNum.rsum_cons. pose proof (H i (or_introl eq_refl)). specialize (IH (fun x Hx => H x (or_intror Hx))). lra. Qed.
(** The probability of the states from [j] on does not decrease. *)
Lemma favours_tail n b b' j : 0 < n -> favours n b b' ->
  (rsum (map (gibbs b n) (seq j (n - j))) <= rsum (map (gibbs b' n) (seq j (n - j))))%R.
Proof.
  intros Hn H. destruct (Nat.le_gt_cases n j) as [Hj|Hj]; [replace (n - j) with 0 by lia; cbn; lra|].
  assert (Ps : forall (h : nat -> R) l, (0 <= rsum (map (fun s => exp (h s)) l))%R).
  { intros h l. induction l as [|x l IH]; [cbn; lra|]. cbn [map]. rewrite LemNum.rsum_cons. pose proof (exp_pos (h x)). lra. }
  assert (Es : forall h : nat -> R, rsum (map (fun s => exp (h s)) (seq 0 n)) = (rsum (map (fun s => exp (h s)) (seq 0 j)) + rsum (map (fun s => exp (h s)) (seq j (n - j))))%R).
  { intros h. replace n with (j + (n - j)) at 1 by lia. rewrite seq_app, map_app, LemNum.rsum_app. reflexivity. }
  assert (Eg : forall h : nat -> R, rsum (map (gibbs h n) (seq j (n - j))) = (rsum (map (fun s => exp (h s)) (seq j (n - j))) * / rsum (map (fun s => exp (h s)) (seq 0 n)))%R).
  { intros h. rewrite rsum_mult_l. reflexivity. }
  rewrite !Eg, !Es.
  set (U := rsum (map (fun s => exp (b s)) (seq j (n - j)))). set (L := rsum (map (fun s => exp (b s)) (seq 0 j))).
  set (U' := rsum (map (fun s => exp (b' s)) (seq j (n - j)))). set (L' := rsum (map (fun s => exp (b' s)) (seq 0 j))).
  assert (X : (U * L' <= U' * L)%R).
  { unfold U, U'. rewrite !rsum_mult_l. apply rsum_mono. intros s Hs. apply in_seq in Hs.
    unfold L, L'. rewrite (Rmult_comm (exp (b s))), (Rmult_comm (exp (b' s))), !rsum_mult_l. apply rsum_mono. intros t Ht. apply in_seq in Ht.
    rewrite <- !exp_plus. specialize (H s t ltac:(lia) ltac:(lia)).
    assert (Hle : (b' t + b s <= b t + b' s)%R) by lra. destruct (Rle_lt_or_eq_dec _ _ Hle) as [Q|Q]; [left; now apply exp_increasing|right; now f_equal]. }
  assert (HU : (0 < U)%R) by (unfold U; replace (n - j) with (S (n - j - 1)) by lia; cbn [seq map]; rewrite LemNum.rsum_cons; pose proof (exp_pos (b j)); pose proof (Ps b (seq (S j) (n - j - 1))); lra).
  assert (HU' : (0 < U')%R) by (unfold U'; replace (n - j) with (S (n - j - 1)) by lia; cbn [seq map]; rewrite LemNum.rsum_cons; pose proof (exp_pos (b' j)); pose proof (Ps b' (seq (S j) (n - j - 1))); lra).
  pose proof (Ps b (seq 0 j)) as HL. fold L in HL. pose proof (Ps b' (seq 0 j)) as HL'. fold L' in HL'.
  apply (Rmult_le_reg_r ((L + U) * (L' + U'))); [apply Rmult_lt_0_compat; lra|].
  replace (U * / (L + U) * ((L + U) * (L' + U')))%R with (U * L' + U * U')%R by (field; lra).
  replace (U' * / (L' + U') * ((L + U) * (L' + U')))%R with (U' * L + U * U')%R by (field; lra). lra.
Qed.

(** ** Runs on a graph *)
Section Graph.
  Context (vgs : list vgroup) (g : fgraph R) (T : R) (c : bp_ctx R).
  Hypothesis Hok : groups_ok vgs.
  Hypothesis Hr : reachable vgs g.
  Hypothesis Hwf : wf_groups (gr_groups g).
  Hypothesis Hbp : bp_of g T c.
  Let fs := graph_factors 0%R (gr_groups g).
  Let pots b := graph_pots (gr_groups g) (ba_log_potentials b).
  Let ne := length (enum_factors (gr_groups g)).
  Let lens := map snd (sf_edges fs).
  Let evs b := read_ev (gr_vars_to_starts g) (ba_evidence b).
  Let msgs b := read_msgs fs (ba_ftov_msgs b).
  Hypothesis Hsup : supported lens.
  Context (d : R).
  Hypothesis HT : (0 <= T)%R.
  Hypothesis Hd : (0 <= d <= 1)%R.
  Lemma mono_cfg : configs_ok fs. Proof. now apply graph_configs_ok. Qed.
  Lemma mono_cov b B P D K : moderate fs (pots b) ne (evs b) B P D K -> covered fs.
  Proof. intros M. apply (graph_covered (gr_groups g) Hwf). destruct M as [_ [_ [_ [_ [H _]]]]]. exact H. Qed.
  Lemma favour_eq m m' x y : msg_eq fs m x -> msg_eq fs m' y -> msgs_favour fs m m' -> msgs_favour fs x y.
  Proof.
    intros E E' H f u Hf Hu s t Hst Hs. specialize (H f u Hf Hu s t Hst Hs). rewrite !(E f u), !(E' f u) in H by (auto; lia). exact H.
  Qed.

  (** *** Two sets of inputs *)
  Section Two.
    Context (a a' : bp_arrays R) (B P B' P' : R) (D K D' K' : nat).
    Hypothesis Ha : arrays_of c a.
    Hypothesis Ha' : arrays_of c a'.
    Hypothesis M : moderate fs (pots a) ne (evs a) B P D K.
    Hypothesis M' : moderate fs (pots a') ne (evs a') B' P' D' K'.
    Hypothesis Hfl : above_floor lens (ba_ftov_msgs a).
    Hypothesis Hfl' : above_floor lens (ba_ftov_msgs a').
    Hypothesis Hlp : ba_log_potentials a' = ba_log_potentials a.
    Hypothesis Hatt : attractive fs (pots a).
    Hypothesis Hev : ev_favours (all_vars vgs) (evs a) (evs a').
    Hypothesis Hm : msgs_favour fs (msgs a) (msgs a').
    Context (n : nat).
    Hypothesis Hb : (binary fs /\ (T <> 0%R -> distinct fs)) \/ (T = 0%R /\ forall i, i <= n -> inside fs (msgs (run_bp c a i d)) /\ inside fs (msgs (run_bp c a' i d))).
    Lemma C66_messages_lemma : msgs_favour fs (msgs (run_bp c a n d)) (msgs (run_bp c a' n d)).
    Proof.
      assert (R1 : forall i, msg_eq fs (msgs (run_bp c a i d)) (text_bp fs (pots a) T d (evs a) (msgs a) i)) by (intros i; exact (LemSep.run_text vgs g T c Hok Hr Hwf Hbp a Ha d B P D K HT Hd M Hsup Hfl i)).
      assert (R2 : forall i, msg_eq fs (msgs (run_bp c a' i d)) (text_bp fs (pots a) T d (evs a') (msgs a') i)).
      { intros i. assert (E : pots a' = pots a) by (unfold pots; now rewrite Hlp). rewrite <- E. exact (LemSep.run_text vgs g T c Hok Hr Hwf Hbp a' Ha' d B' P' D' K' HT Hd M' Hsup Hfl' i). }
      eapply favour_eq; [apply msg_eq_sym, R1|apply msg_eq_sym, R2|].
      apply text_favour; auto.
      - exact mono_cfg.
      - exact (mono_cov _ _ _ _ _ M).
      - intros f u Hf Hu. apply Hev. apply (edges_vars vgs g T c Hok Hr Hwf Hbp). fold fs. now apply var_in_edges.
      - destruct Hb as [H|[H1 H2]]; [now left|right]. split; [exact H1|]. intros i Hi. destruct (H2 i Hi) as [I1 I2].
        split; intros f u s Hf Hu Hs; [rewrite <- (R1 i f u s Hf Hu Hs)|rewrite <- (R2 i f u s Hf Hu Hs)]; auto.
    Qed.
    Let bel b x := text_belief fs (evs b) (msgs (run_bp c b n d)) x.
    Lemma bel_favour x : In x (all_vars vgs) -> favours (snd x) (bel a x) (bel a' x).
    Proof.
      intros Hx. unfold bel, text_belief. apply (favours_plus _ (evs a x) (evs a' x)); [now apply Hev|].
      apply (favours_sum (snd x) (fun fu => msgs (run_bp c a n d) (fst fu) (snd fu)) (fun fu => msgs (run_bp c a' n d) (fst fu) (snd fu))).
      intros [f u] Hi. apply In_slots_of in Hi. destruct Hi as [Hf [Hu <-]]. cbn [fst snd]. now apply C66_messages_lemma.
    Qed.
    Lemma C66_beliefs_lemma : (forall gr k, In gr vgs -> In k (vg_num_states gr) -> 0 < k) -> (forall gr, In gr vgs -> one_state gr = false) ->
      exists b q z b' q' z', get_beliefs c (run_bp c a n d) = Ok b /\ decode_map_states b = Ok q /\ get_marginals b = Ok z /\
        get_beliefs c (run_bp c a' n d) = Ok b' /\ decode_map_states b' = Ok q' /\ get_marginals b' = Ok z' /\
      forall gr, In gr vgs -> exists e y k e' y' k',
        dget vg_eqb gr b = Some e /\ dget vg_eqb gr q = Some y /\ dget vg_eqb gr z = Some k /\
        dget vg_eqb gr b' = Some e' /\ dget vg_eqb gr q' = Some y' /\ dget vg_eqb gr z' = Some k' /\
      forall i x, nth_error (vg_variables gr) i = Some x ->
        (exists h h' pad, row gr e i = map (fun s => Fin (h s)) (seq 0 (snd x)) ++ repeat NInf pad /\
           row gr e' i = map (fun s => Fin (h' s)) (seq 0 (snd x)) ++ repeat NInf pad /\ favours (snd x) h h') /\
        (exists s s', cell gr y i = [s] /\ cell gr y' i = [s'] /\ s <= s') /\
        (forall j, (rsum (skipn j (row gr k i)) <= rsum (skipn j (row gr k' i)))%R).
    Proof.
      intros Hpos Hone.
      destruct (symm_results vgs g T c Hok Hr Hwf Hbp a Ha d Hpos Hone n) as [b [q [z [Eb [Eq [Ez H]]]]]].
      destruct (symm_results vgs g T c Hok Hr Hwf Hbp a' Ha' d Hpos Hone n) as [b' [q' [z' [Eb' [Eq' [Ez' H']]]]]].
      exists b, q, z, b', q', z'. do 6 (split; [assumption|]). intros gr Hg.
      destruct (H gr Hg) as [e [y [k [E1 [E2 [E3 F]]]]]]. destruct (H' gr Hg) as [e' [y' [k' [E1' [E2' [E3' F']]]]]].
      exists e, y, k, e', y', k'. do 6 (split; [assumption|]). intros i x Hi.
      destruct (F i x Hi) as [Hx [R1 [[s [C1 C2]] R2]]]. destruct (F' i x Hi) as [_ [R1' [[s' [C1' C2']] R2']]].
      pose proof (bel_favour x Hx) as HF. split; [|split].
      - exists (bel a x), (bel a' x), (state_axis gr i - snd x). auto.
      - exists s, s'. do 2 (split; [assumption|]). exact (favours_best _ _ _ _ _ HF C2 C2').
      - intros j. rewrite R2, R2'. set (pad := state_axis gr i - snd x).
        assert (Sk : forall h : nat -> R, rsum (skipn j (map h (seq 0 (snd x)) ++ repeat 0%R pad)) = rsum (map h (seq j (snd x - j)))).
        { intros h. rewrite skipn_app, LemNum.rsum_app.
          assert (Z : forall m l, (forall w, In w l -> w = 0%R) -> rsum (skipn m l) = 0%R).
          { intros m l. revert m. induction l as [|w l IH]; intros [|m] Hw; cbn [skipn]; try reflexivity.
            - rewrite LemNum.rsum_cons. rewrite (Hw w (or_introl eq_refl)). specialize (IH 0 (fun w' Hw' => Hw w' (or_intror Hw'))). cbn [skipn] in IH. rewrite IH. lra.
            - apply IH. intros w' Hw'. apply Hw. now right. }
          rewrite (Z _ (repeat 0%R pad)) by (intros w Hw; now apply repeat_spec in Hw). rewrite Rplus_0_r, skipn_map. do 2 f_equal.
          clear. generalize (snd x). intros m. change (seq j (m - j)) with (seq (0 + j) (m - j)). generalize 0. revert m. induction j as [|j IH]; intros m st; [rewrite Nat.add_0_r, Nat.sub_0_r; reflexivity|].
          destruct m as [|m]; [reflexivity|]. cbn [seq skipn Nat.sub]. rewrite IH. f_equal. lia. }
        rewrite !Sk. apply favours_tail; [|exact HF]. destruct C2 as [C2 _]. lia.
    Qed.
  End Two.

  (** *** One model with two states per variable *)
  Section One.
    Context (a : bp_arrays R) (B P : R) (D K : nat).
    Hypothesis Ha : arrays_of c a.
    Hypothesis M : moderate fs (pots a) ne (evs a) B P D K.
    Hypothesis Hatt : attractive fs (pots a).
    Hypothesis Hbin : binary fs.
    Hypothesis Hdist : T <> 0%R -> distinct fs.
    Let start m := length m = length (ba_ftov_msgs a) /\ above_floor lens m.
    Let run m n := ba_ftov_msgs (run_bp c (with_msgs a m) n d).
    Let read := read_msgs fs.
    Let text m n := text_bp fs (pots a) T d (evs a) (read m) n.
    Let step := text_step fs (pots a) T d (evs a).
    Lemma mono_pos f u : f < length fs -> u < arity fs f -> 0 < snd (var_at fs f u). Proof. now apply positive_states. Qed.
    Lemma one_total : length (ba_ftov_msgs a) = total_states fs. Proof. exact (conv_total vgs g T c Hok Hr Hwf Hbp a Ha). Qed.
    Lemma one_length m n : start m -> length (run m n) = total_states fs.
    Proof. intros [L _]. exact (run_total vgs g T c Hok Hr Hwf Hbp d a Ha m n L). Qed.
    Lemma one_text m n : start m -> msg_eq fs (read (run m n)) (text m n).
    Proof.
      intros [L F]. exact (LemSep.run_text vgs g T c Hok Hr Hwf Hbp (with_msgs a m) (with_arrays c a Ha m L) d B P D K HT Hd M Hsup F n).
    Qed.
    Lemma one_normal m n : start m -> normal_msgs fs (read (run m n)).
    Proof. intros [L F]. exact (C29_bounded_lemma vgs g T c (with_msgs a m) B P D K d Hok Hr Hwf Hbp (with_arrays c a Ha m L) M HT Hd Hsup F n). Qed.
    Lemma one_later m n k : start m -> run (run m n) k = run m (n + k).
    Proof.
      intros [L F]. unfold run at 1. change (with_msgs a (run m n)) with (run_bp c (with_msgs a m) n d).
      now rewrite (C31_bounded_lemma vgs g T c (with_msgs a m) B P D K d Hok Hr Hwf Hbp (with_arrays c a Ha m L) M HT Hd Hsup F n k).
    Qed.
    Lemma one_start m : length m = length (ba_ftov_msgs a) -> normal_msgs fs (read m) -> start m.
    Proof. exact (normal_start vgs g T c Hok Hr Hwf Hbp Hsup a Ha m). Qed.
    Lemma one_step x y : msgs_favour fs x y -> msgs_favour fs (step x) (step y).
    Proof. exact (step_favour fs (pots a) T d mono_cfg Hatt (mono_cov _ _ _ _ _ M) HT Hd Hbin Hdist (evs a) x y). Qed.
    Lemma one_favour m m' n : start m -> start m' -> msgs_favour fs (read (run m 0)) (read (run m' 0)) -> msgs_favour fs (read (run m n)) (read (run m' n)).
    Proof.
      intros Hm Hm' H. eapply favour_eq; [apply msg_eq_sym, one_text, Hm|apply msg_eq_sym, one_text, Hm'|].
      pose proof (favour_eq _ _ _ _ (one_text m 0 Hm) (one_text m' 0 Hm') H) as H0.
      induction n as [|n IH]; [exact H0|]. exact (one_step _ _ IH).
    Qed.
    Lemma one_rising m : start m -> msgs_favour fs (read (run m 0)) (read (run m 1)) -> forall n k, n <= k -> msgs_favour fs (read (run m n)) (read (run m k)).
    Proof.
      intros Hm H n k Hnk. eapply favour_eq; [apply msg_eq_sym, one_text, Hm|apply msg_eq_sym, one_text, Hm|].
      apply (rising fs (pots a) T d mono_cfg Hatt (mono_cov _ _ _ _ _ M) HT Hd Hbin Hdist (evs a)); [|exact Hnk].
      exact (favour_eq _ _ _ _ (one_text m 0 Hm) (one_text m 1 Hm) H).
    Qed.
    Lemma one_falling m : start m -> msgs_favour fs (read (run m 1)) (read (run m 0)) -> forall n k, n <= k -> msgs_favour fs (read (run m k)) (read (run m n)).
    Proof.
      intros Hm H n k Hnk. eapply favour_eq; [apply msg_eq_sym, one_text, Hm|apply msg_eq_sym, one_text, Hm|].
      apply (falling fs (pots a) T d mono_cfg Hatt (mono_cov _ _ _ _ _ M) HT Hd Hbin Hdist (evs a)); [|exact Hnk].
      exact (favour_eq _ _ _ _ (one_text m 1 Hm) (one_text m 0 Hm) H).
    Qed.
    Lemma two_entries x f u : normal_msgs fs x -> f < length fs -> u < arity fs f ->
      x f u 0%nat = Rmin 0 (- gap (x f u)) /\ x f u 1%nat = Rmin 0 (gap (x f u)) /\ (-1000 <= gap (x f u) <= 1000)%R.
    Proof. intros N Hf Hu. destruct (N f u Hf Hu) as [N1 N2]. rewrite (Hbin f u Hf Hu) in N1, N2. now apply normal_entries. Qed.
    Lemma favour_gap x y : msgs_favour fs x y <-> forall f u, f < length fs -> u < arity fs f -> (gap (x f u) <= gap (y f u))%R.
    Proof.
      split; intros H f u Hf Hu; specialize (H f u Hf Hu); [rewrite (Hbin f u Hf Hu) in H; exact (proj1 (favours_two _ _) H)|rewrite (Hbin f u Hf Hu); exact (proj2 (favours_two _ _) H)].
    Qed.
    Definition tends m l := forall eps, (0 < eps)%R -> exists N, forall n i, N <= n -> (Rabs (nth i (run m n) 0 - nth i l 0) < eps)%R.
    (** A monotone run has a limit, and the limit stays. *)
    Lemma one_limit m : start m ->
      (forall n k, n <= k -> msgs_favour fs (read (run m n)) (read (run m k))) \/ (forall n k, n <= k -> msgs_favour fs (read (run m k)) (read (run m n))) ->
      exists l, start l /\ (forall n, run l n = l) /\ tends m l.
    Proof.
      intros Hm Hmono. pose proof one_total as Lt.
      assert (C : forall f u s, f < length fs -> u < arity fs f -> s < snd (var_at fs f u) -> exists r, Un_cv (fun n => read (run m n) f u s) r).
      { intros f u s Hf Hu Hs. rewrite (Hbin f u Hf Hu) in Hs.
        destruct (monotone_limit (fun n => gap (read (run m n) f u))) as [r Hr'].
        - intros n. now destruct (two_entries _ f u (one_normal m n Hm) Hf Hu) as [_ [_ H]].
        - destruct Hmono as [H|H]; [left|right]; intros n k Hnk; specialize (H n k Hnk); now apply (proj1 (favour_gap _ _) H f u).
        - destruct s as [|[|]]; [| |lia].
          + exists (Rmin 0 (- r)). intros e He. destruct (Hr' (e / 2)%R ltac:(lra)) as [N HN]. exists N. intros n Hn. specialize (HN n Hn). unfold R_dist in *.
            destruct (two_entries _ f u (one_normal m n Hm) Hf Hu) as [-> _]. eapply Rle_lt_trans; [apply (Rmin_near _ _ (e / 2))|lra].
            replace (- gap (read (run m n) f u) - - r)%R with (- (gap (read (run m n) f u) - r))%R by ring. rewrite Rabs_Ropp. lra.
          + exists (Rmin 0 r). intros e He. destruct (Hr' (e / 2)%R ltac:(lra)) as [N HN]. exists N. intros n Hn. specialize (HN n Hn). unfold R_dist in *.
            destruct (two_entries _ f u (one_normal m n Hm) Hf Hu) as [_ [-> _]]. eapply Rle_lt_trans; [apply (Rmin_near _ _ (e / 2))|lra]. lra. }
      destruct (@choose_list (fun i r => Un_cv (fun n => nth i (run m n) 0%R) r) (total_states fs)) as [l [Ll Hl]].
      { intros i Hi. destruct (index_slot fs i Hi) as [f [u [s [Hf [Hu [Hs ->]]]]]]. exact (C f u s Hf Hu Hs). }
      assert (Cv : forall f u s, f < length fs -> u < arity fs f -> s < snd (var_at fs f u) -> Un_cv (fun n => text m n f u s) (read l f u s)).
      { intros f u s Hf Hu Hs e He. destruct (Hl (slot_index fs f u s) (slot_index_lt fs f u s Hf Hu Hs) e He) as [N HN]. exists N. intros n Hn.
        rewrite <- (one_text m n Hm f u s Hf Hu Hs). exact (HN n Hn). }
      pose proof (limit_stays fs (pots a) T d (evs a) mono_cfg (mono_cov _ _ _ _ _ M) mono_pos HT Hd (read m) (read l) Cv) as Fx.
      assert (Nl : normal_msgs fs (read l)).
      { intros f u Hf Hu. destruct (normal_msgs_normal fs mono_pos (damp d (read l) (fac_to_var fs (pots a) T (var_to_fac fs (evs a) (read l)))) f u Hf Hu) as [[s [Hs E]] H].
        split; [exists s; split; [exact Hs|]; rewrite <- (Fx f u s Hf Hu Hs); exact E|]. intros t Ht. rewrite <- (Fx f u t Hf Hu Ht). now apply H. }
      assert (Hst : start l) by (apply one_start; [congruence|exact Nl]).
      exists l. split; [exact Hst|]. split.
      - intros n. apply (read_ext fs); [now apply one_length|exact Ll|]. eapply msg_eq_trans; [apply one_text, Hst|].
        exact (fixed_stays fs (pots a) T d (evs a) mono_cfg (mono_cov _ _ _ _ _ M) mono_pos HT Hd (read l) n Fx).
      - intros e He. destruct (@uniform (fun i n => (Rabs (nth i (run m n) 0 - nth i l 0) < e)%R) (total_states fs)) as [N HN].
        { intros i Hi. destruct (Hl i Hi e He) as [N HN]. exists N. exact HN. }
        exists N. intros n i Hn. destruct (Nat.lt_ge_cases i (total_states fs)) as [Hi|Hi]; [now apply HN|].
        rewrite !nth_overflow by (rewrite ?one_length by exact Hm; lia). rewrite Rminus_0_r, Rabs_R0. exact He.
    Qed.
    Lemma tends_near m l : tends m l -> forall e, (0 < e)%R -> exists N, forall n, N <= n -> forall f u s, f < length fs -> u < arity fs f -> s < snd (var_at fs f u) -> (Rabs (read (run m n) f u s - read l f u s) < e)%R.
    Proof. intros H e He. destruct (H e He) as [N HN]. exists N. intros n Hn f u s Hf Hu Hs. exact (HN n (slot_index fs f u s) Hn). Qed.
    Lemma limit_above m l z n : tends m l -> (forall k, n <= k -> msgs_favour fs z (read (run m k))) -> msgs_favour fs z (read l).
    Proof.
      intros Hl H. apply favour_gap. intros f u Hf Hu. apply Rnot_lt_le. intros Q.
      destruct (tends_near m l Hl ((gap (z f u) - gap (read l f u)) / 2)%R ltac:(lra)) as [N HN].
      pose proof (proj1 (favour_gap _ _) (H (n + N) ltac:(lia)) f u Hf Hu) as X.
      assert (E0 : 0 < snd (var_at fs f u)) by (rewrite (Hbin f u Hf Hu); lia). assert (E1 : 1 < snd (var_at fs f u)) by (rewrite (Hbin f u Hf Hu); lia).
      pose proof (HN (n + N) ltac:(lia) f u 0 Hf Hu E0) as N0. pose proof (HN (n + N) ltac:(lia) f u 1 Hf Hu E1) as N1.
      apply Rabs_def2 in N0, N1. unfold gap in *. lra.
    Qed.
    Lemma limit_below m l z n : tends m l -> (forall k, n <= k -> msgs_favour fs (read (run m k)) z) -> msgs_favour fs (read l) z.
    Proof.
      intros Hl H. apply favour_gap. intros f u Hf Hu. apply Rnot_lt_le. intros Q.
      destruct (tends_near m l Hl ((gap (read l f u) - gap (z f u)) / 2)%R ltac:(lra)) as [N HN].
      pose proof (proj1 (favour_gap _ _) (H (n + N) ltac:(lia)) f u Hf Hu) as X.
      assert (E0 : 0 < snd (var_at fs f u)) by (rewrite (Hbin f u Hf Hu); lia). assert (E1 : 1 < snd (var_at fs f u)) by (rewrite (Hbin f u Hf Hu); lia).
      pose proof (HN (n + N) ltac:(lia) f u 0 Hf Hu E0) as N0. pose proof (HN (n + N) ltac:(lia) f u 1 Hf Hu E1) as N1.
      apply Rabs_def2 in N0, N1. unfold gap in *. lra.
    Qed.
    Lemma C66_rising_lemma m : start m -> msgs_favour fs (read (run m 0)) (read (run m 1)) ->
      (forall n k, n <= k -> msgs_favour fs (read (run m n)) (read (run m k))) /\
      exists l, start l /\ (forall n, run l n = l) /\ tends m l /\ (forall n, msgs_favour fs (read (run m n)) (read l)).
    Proof.
      intros Hm H. pose proof (one_rising m Hm H) as Hup. split; [exact Hup|]. destruct (one_limit m Hm (or_introl Hup)) as [l [L1 [L2 L3]]].
      exists l. do 3 (split; [assumption|]). intros n. apply (limit_above m l _ n L3). intros k Hk. now apply Hup.
    Qed.
    Lemma C66_falling_lemma m : start m -> msgs_favour fs (read (run m 1)) (read (run m 0)) ->
      (forall n k, n <= k -> msgs_favour fs (read (run m k)) (read (run m n))) /\
      exists l, start l /\ (forall n, run l n = l) /\ tends m l /\ (forall n, msgs_favour fs (read l) (read (run m n))).
    Proof.
      intros Hm H. pose proof (one_falling m Hm H) as Hdown. split; [exact Hdown|]. destruct (one_limit m Hm (or_intror Hdown)) as [l [L1 [L2 L3]]].
      exists l. do 3 (split; [assumption|]). intros n. apply (limit_below m l _ n L3). intros k Hk. now apply Hdown.
    Qed.
    Lemma favour_trans x y z : msgs_favour fs x y -> msgs_favour fs y z -> msgs_favour fs x z.
    Proof. intros H H' f u Hf Hu. eapply favours_trans; [exact (H f u Hf Hu)|exact (H' f u Hf Hu)]. Qed.
    Lemma lowest_below x : normal_msgs fs x -> msgs_favour fs lowest x.
    Proof. intros N. apply favour_gap. intros f u Hf Hu. destruct (two_entries x f u N Hf Hu) as [_ [_ H]]. unfold gap at 1, lowest. cbn. lra. Qed.
    Lemma highest_above x : normal_msgs fs x -> msgs_favour fs x highest.
    Proof. intros N. apply favour_gap. intros f u Hf Hu. destruct (two_entries x f u N Hf Hu) as [_ [_ H]]. unfold gap at 2, highest. cbn. lra. Qed.
    Lemma normal_fixed x : normal_msgs fs x -> msg_eq fs (normal fs x) x.
    Proof.
      intros N f u s Hf Hu Hs. destruct (N f u Hf Hu) as [[t [Ht E]] H]. unfold normal.
      assert (X : rmaxs (map (x f u) (seq 0 (snd (var_at fs f u)))) = 0%R).
      { apply rmaxs_eq; [apply in_map_iff; exists t; split; [exact E|apply in_seq; lia]|]. intros y Hy. apply in_map_iff in Hy. destruct Hy as [w [<- Hw]]. apply in_seq in Hw. apply H. lia. }
      rewrite X, Rminus_0_r. apply Rmax_right. now apply H.
    Qed.
    Lemma extreme_normal lo : msg_eq fs (read lo) lowest \/ msg_eq fs (read lo) highest -> normal_msgs fs (read lo).
    Proof.
      intros H f u Hf Hu. pose proof (Hbin f u Hf Hu) as Hb2. split.
      - destruct H as [E|E]; [exists 0|exists 1]; (split; [lia|]); rewrite (E f u) by lia; reflexivity.
      - intros s Hs. rewrite Hb2 in Hs. destruct H as [E|E]; rewrite (E f u s) by lia; destruct s as [|[|]]; cbn; try lia; lra.
    Qed.
    Lemma run_zero m : start m -> normal_msgs fs (read m) -> msg_eq fs (read (run m 0)) (read m).
    Proof. intros Hm N. eapply msg_eq_trans; [apply one_text, Hm|]. now apply normal_fixed. Qed.
    Lemma C66_extremes_lemma lo hi : length lo = length (ba_ftov_msgs a) -> length hi = length (ba_ftov_msgs a) ->
      msg_eq fs (read lo) lowest -> msg_eq fs (read hi) highest ->
      start lo /\ start hi /\
      (forall m n, start m -> msgs_favour fs (read (run lo n)) (read (run m n)) /\ msgs_favour fs (read (run m n)) (read (run hi n))) /\
      exists l h, start l /\ start h /\ (forall n, run l n = l) /\ (forall n, run h n = h) /\ tends lo l /\ tends hi h /\
        (forall m n, start m -> 0 < n -> run m n = m -> msgs_favour fs (read l) (read m) /\ msgs_favour fs (read m) (read h)) /\
        (l = h -> forall m, start m -> tends m l).
    Proof.
      intros Llo Lhi Elo Ehi.
      assert (Slo : start lo) by (apply one_start; [exact Llo|apply extreme_normal; now left]).
      assert (Shi : start hi) by (apply one_start; [exact Lhi|apply extreme_normal; now right]).
      split; [exact Slo|]. split; [exact Shi|].
      assert (Zlo : msg_eq fs (read (run lo 0)) lowest) by (eapply msg_eq_trans; [apply run_zero; [exact Slo|apply extreme_normal; now left]|exact Elo]).
      assert (Zhi : msg_eq fs (read (run hi 0)) highest) by (eapply msg_eq_trans; [apply run_zero; [exact Shi|apply extreme_normal; now right]|exact Ehi]).
      assert (Bl : forall m k, start m -> msgs_favour fs (read (run lo 0)) (read (run m k))).
      { intros m k Hm. eapply favour_eq; [apply msg_eq_sym, Zlo|intros f u s _ _ _; reflexivity|]. apply lowest_below. now apply one_normal. }
      assert (Bh : forall m k, start m -> msgs_favour fs (read (run m k)) (read (run hi 0))).
      { intros m k Hm. eapply favour_eq; [intros f u s _ _ _; reflexivity|apply msg_eq_sym, Zhi|]. apply highest_above. now apply one_normal. }
      assert (Btw : forall m n, start m -> msgs_favour fs (read (run lo n)) (read (run m n)) /\ msgs_favour fs (read (run m n)) (read (run hi n))).
      { intros m n Hm. split; apply one_favour; auto. }
      split; [exact Btw|].
      destruct (C66_rising_lemma lo Slo (Bl lo 1 Slo)) as [Up [l [Sl [Fl [Tl _]]]]].
      destruct (C66_falling_lemma hi Shi (Bh hi 1 Shi)) as [Dn [h [Sh [Fh [Th _]]]]].
      exists l, h. do 6 (split; [assumption|]). split.
      - intros m n Hm Hn E.
        assert (E0 : run m 0 = m) by (rewrite <- E at 1; rewrite one_later by exact Hm; rewrite Nat.add_0_r; exact E).
        assert (Ej : forall j, run m (j * n) = m).
        { induction j as [|j IH]; [exact E0|]. change (S j * n) with (n + j * n). rewrite <- one_later by exact Hm. now rewrite E. }
        assert (Hj : forall k, k <= k * n) by (intros k; destruct n; [lia|]; rewrite Nat.mul_succ_r; lia).
        split; [apply (limit_below lo l _ 0 Tl)|apply (limit_above hi h _ 0 Th)]; intros k _; rewrite <- (Ej k).
        + eapply favour_trans; [apply (Up k (k * n) (Hj k))|]. now apply Btw.
        + eapply favour_trans; [|apply (Dn k (k * n) (Hj k))]. now apply Btw.
      - intros E m Hm e He. subst h. destruct (Tl e He) as [N1 H1]. destruct (Th e He) as [N2 H2]. exists (Nat.max N1 N2). intros n i Hn.
        destruct (Nat.lt_ge_cases i (total_states fs)) as [Hi|Hi].
        + specialize (H1 n i ltac:(lia)). specialize (H2 n i ltac:(lia)). destruct (index_slot fs i Hi) as [f [u [s [Hf [Hu [Hs ->]]]]]].
          change (nth (slot_index fs f u s) (run m n) 0%R) with (read (run m n) f u s).
          change (nth (slot_index fs f u s) (run lo n) 0%R) with (read (run lo n) f u s) in H1. change (nth (slot_index fs f u s) (run hi n) 0%R) with (read (run hi n) f u s) in H2.
          destruct (Btw m n Hm) as [W1 W2]. pose proof (proj1 (favour_gap _ _) W1 f u Hf Hu) as G1. pose proof (proj1 (favour_gap _ _) W2 f u Hf Hu) as G2.
          destruct (two_entries _ f u (one_normal m n Hm) Hf Hu) as [A0 [A1 _]]. destruct (two_entries _ f u (one_normal lo n Slo) Hf Hu) as [B0 [B1 _]].
          destruct (two_entries _ f u (one_normal hi n Shi) Hf Hu) as [C0 [C1 _]]. rewrite (Hbin f u Hf Hu) in Hs.
          apply Rabs_def2 in H1, H2. apply Rabs_def1; destruct s as [|[|]]; try lia;
            [rewrite A0; rewrite B0, C0 in *|rewrite A1; rewrite B1, C1 in *|rewrite A0; rewrite B0, C0 in *|rewrite A1; rewrite B1, C1 in *];
            revert H1 H2; unfold Rmin; repeat destruct (Rle_dec _ _); lra.
        + rewrite !nth_overflow by (rewrite ?one_length by exact Hm; destruct Sl as [Sl _]; rewrite ?Sl, ?one_total; lia). rewrite Rminus_0_r, Rabs_R0. exact He.
    Qed.
  End One.
End Graph.
