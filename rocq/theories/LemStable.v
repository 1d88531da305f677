(** * Proofs about the drift between two runs (C48). *)
From Verif Require Import NumPy Lists VGroup FGraph BPState BP SpecVGroup SpecFGraph SpecFactor SpecWiring SpecState SpecBP SpecText SpecBeliefs SpecStable.
From Verif Require Import LemFGraph LemState LemNum LemNorm LemVtoF LemEnum LemLogBP LemText LemRun LemBeliefs LemShift.
From Coq Require Import Reals Lra Lia.
Local Open Scope nat_scope.

(** ** Spreads *)
Lemma Rabs_between x e : (Rabs x <= e)%R -> (- e <= x <= e)%R.
Proof. intros H. pose proof (Rle_abs x). pose proof (Rle_abs (- x)). rewrite Rabs_Ropp in *. lra. Qed.
Lemma spread_mono n h h' e e' : (e <= e')%R -> spread n h h' e -> spread n h h' e'.
Proof. intros He [b H]. exists b. intros s Hs. specialize (H s Hs). lra. Qed.
Lemma spread_ext n h h' k k' e : (forall s, s < n -> h s = k s) -> (forall s, s < n -> h' s = k' s) -> spread n h h' e -> spread n k k' e.
Proof. intros E E' [b H]. exists b. intros s Hs. rewrite <- E, <- E' by exact Hs. now apply H. Qed.
Lemma spread_plus n h h' k k' e e' : spread n h h' e -> spread n k k' e' -> spread n (fun s => h s + k s)%R (fun s => h' s + k' s)%R (e + e')%R.
Proof. intros [b H] [b' H']. exists (b + b')%R. intros s Hs. specialize (H s Hs). specialize (H' s Hs). lra. Qed.
Lemma spread_zero n h : spread n h h 0.
Proof. exists 0%R. intros s _. lra. Qed.
Lemma spread_near n h h' e : (forall s, s < n -> (Rabs (h s - h' s) <= e)%R) -> spread n h h' (2 * e).
Proof. intros H. exists (- e)%R. intros s Hs. specialize (H s Hs). apply Rabs_between in H. lra. Qed.
Lemma spread_trans n h h' h'' e e' : spread n h h' e -> spread n h' h'' e' -> spread n h h'' (e + e')%R.
Proof. intros [b H] [b' H']. exists (b + b')%R. intros s Hs. specialize (H s Hs). specialize (H' s Hs). lra. Qed.
Lemma spread_sum {X} n (h h' : X -> nat -> R) e l k : (0 <= e)%R -> length l <= k ->
  (forall x, In x l -> spread n (h x) (h' x) e) ->
  spread n (fun s => rsum (map (fun x => h x s) l)) (fun s => rsum (map (fun x => h' x s) l)) (INR k * e)%R.
Proof.
  intros He. revert k. induction l as [|x l IH]; intros k Hk H.
  - apply (spread_mono _ _ _ 0); [apply Rmult_le_pos; [apply pos_INR|exact He]|]. apply spread_zero.
  - destruct k as [|k]; [cbn in Hk; lia|]. rewrite S_INR. replace ((INR k + 1) * e)%R with (e + INR k * e)%R by ring.
    cbn [map]. apply (spread_ext _ (fun s => h x s + rsum (map (fun x => h x s) l))%R (fun s => h' x s + rsum (map (fun x => h' x s) l))%R); [reflexivity|reflexivity|].
    apply spread_plus; [apply H; now left|]. apply IH; [cbn in Hk; lia|]. intros y Hy. apply H. now right.
Qed.
(** Maxima. *)
Lemma rmaxs_between {X} (f g : X -> R) l b e : l <> [] -> (forall x, In x l -> (b <= f x - g x <= b + e)%R) ->
  (b <= rmaxs (map f l) - rmaxs (map g l) <= b + e)%R.
Proof.
  intros Hn H. assert (Nf : map f l <> []) by (destruct l; [contradiction|discriminate]). assert (Ng : map g l <> []) by (destruct l; [contradiction|discriminate]).
  split.
  - pose proof (rmaxs_In _ Ng) as I. apply in_map_iff in I. destruct I as [x [E Hx]]. specialize (H x Hx).
    assert (f x <= rmaxs (map f l))%R by (apply rmaxs_ub; now apply in_map). lra.
  - pose proof (rmaxs_In _ Nf) as I. apply in_map_iff in I. destruct I as [x [E Hx]]. specialize (H x Hx).
    assert (g x <= rmaxs (map g l))%R by (apply rmaxs_ub; now apply in_map). lra.
Qed.
Lemma soft_between {X} T (f g : X -> R) l b e : (0 < T)%R -> l <> [] -> (forall x, In x l -> (b <= f x - g x <= b + e)%R) ->
  (b <= T * ln (rsum (map (fun x => exp (f x / T)) l)) - T * ln (rsum (map (fun x => exp (g x / T)) l)) <= b + e)%R.
Proof.
  intros HT Hn H.
  assert (P : forall k : X -> R, (0 < rsum (map (fun x => exp (k x / T)) l))%R).
  { intros k. apply rsum_pos; [destruct l; [contradiction|discriminate]|]. intros y Hy. apply in_map_iff in Hy. destruct Hy as [z [<- _]]. apply exp_pos. }
  assert (M : forall k, (T * ln (rsum (map (fun x => exp ((g x + k) / T)) l)) = T * ln (rsum (map (fun x => exp (g x / T)) l)) + k)%R).
  { intros k. rewrite (map_ext _ (fun x => exp (k / T) * exp (g x / T))%R).
    - rewrite rsum_scal, ln_mult, ln_exp; [field; lra|apply exp_pos|apply P].
    - intros x. rewrite <- exp_plus. f_equal. field. lra. }
  assert (L : forall k k' : X -> R, (forall x, In x l -> (k x <= k' x)%R) ->
            (T * ln (rsum (map (fun x => exp (k x / T)) l)) <= T * ln (rsum (map (fun x => exp (k' x / T)) l)))%R).
  { intros k k' Hk. apply Rmult_le_compat_l; [lra|].
    assert (Q : (rsum (map (fun x => exp (k x / T)) l) <= rsum (map (fun x => exp (k' x / T)) l))%R).
    { apply rsum_le. intros x Hx. specialize (Hk x Hx). destruct (Rle_lt_or_eq_dec _ _ Hk) as [Hl|E].
      - left. apply exp_increasing. apply Rmult_lt_compat_r; [now apply Rinv_0_lt_compat|exact Hl].
      - rewrite E. apply Rle_refl. }
    destruct (Rle_lt_or_eq_dec _ _ Q) as [Hl|E]; [left; apply ln_increasing; [apply P|exact Hl]|rewrite E; apply Rle_refl]. }
  split.
  - assert (Q := L (fun x => g x + b)%R f ltac:(intros x Hx; specialize (H x Hx); lra)). cbv beta in Q. rewrite M in Q. lra.
  - assert (Q := L f (fun x => g x + (b + e))%R ltac:(intros x Hx; specialize (H x Hx); lra)). cbv beta in Q. rewrite M in Q. lra.
Qed.

(** ** One step *)
Section Step.
  Context {A : Type} (fs : list (sfactor A)) (D K : nat).
  Hypothesis Hcfg : configs_ok fs.
  Hypothesis Hcov : covered fs.
  Hypothesis Hdeg : degrees fs D K.

  Lemma others_length x f u : In (f, u) (slots_of fs x) -> length (filter (fun fu => negb (slot_eqb fu (f, u))) (slots_of fs x)) <= D - 1.
  Proof.
    intros Hi. pose proof (proj1 Hdeg x) as HD.
    assert (H : length (filter (fun fu => negb (slot_eqb fu (f, u))) (slots_of fs x)) < length (slots_of fs x)); [|lia].
    clear HD. induction (slots_of fs x) as [|p l IH]; [destruct Hi|]. cbn [filter].
    destruct (slot_eqb p (f, u)) eqn:E; cbn [negb length].
    - pose proof (filter_length_le (fun fu => negb (slot_eqb fu (f, u))) l). lia.
    - destruct Hi as [->|Hi]; [unfold slot_eqb in E; cbn in E; rewrite !Nat.eqb_refl in E; discriminate|]. specialize (IH Hi). lia.
  Qed.
  Lemma var_to_fac_spread ev ev' m m' e x : (0 <= x)%R -> ev_spread fs ev ev' e -> msgs_spread fs m m' x ->
    msgs_spread fs (var_to_fac fs ev m) (var_to_fac fs ev' m') (e + INR (D - 1) * x)%R.
  Proof.
    intros Hx He Hm f u Hf Hu. unfold var_to_fac.
    apply (spread_plus _ (ev (var_at fs f u)) (ev' (var_at fs f u))); [apply He; now apply var_in_edges|].
    apply (spread_sum _ (fun fu => m (fst fu) (snd fu)) (fun fu => m' (fst fu) (snd fu))); [exact Hx| |].
    - apply others_length. apply In_slots_of. auto.
    - intros [f' u'] Hi. apply filter_In in Hi. destruct Hi as [Hi _]. apply In_slots_of in Hi. destruct Hi as [H1 [H2 H3]]. cbn [fst snd]. rewrite <- H3. now apply Hm.
  Qed.
  (** Potentials plus messages: an interval for all configurations at once. *)
  Lemma scores_spread pots pots' v v' p x f u : (0 <= x)%R -> f < length fs -> u < arity fs f ->
    pots_spread fs pots pots' p -> msgs_spread fs v v' x ->
    exists b, forall c, c < length (sf_configs (factor_at fs f)) ->
      (b <= score_but fs pots v f c u - score_but fs pots' v' f c u <= b + (p + INR (K - 1) * x))%R.
  Proof.
    intros Hx Hf Hu Hp Hv. unfold score_but.
    assert (Hl : length (filter (fun u' => negb (u' =? u)) (seq 0 (arity fs f))) <= K - 1).
    { pose proof (proj2 Hdeg f Hf) as HK.
      assert (H : length (filter (fun u' => negb (u' =? u)) (seq 0 (arity fs f))) < length (seq 0 (arity fs f))); [|rewrite seq_length in H; lia].
      assert (Hi : In u (seq 0 (arity fs f))) by (apply in_seq; lia). clear - Hi. induction (seq 0 (arity fs f)) as [|p l IH]; [destruct Hi|].
      cbn [filter]. destruct (Nat.eqb_spec p u) as [E|E]; cbn [negb length].
      - pose proof (filter_length_le (fun u' => negb (u' =? u)) l). lia.
      - destruct Hi as [->|Hi]; [contradiction|]. specialize (IH Hi). lia. }
    assert (Hin : forall w, In w (filter (fun u' => negb (u' =? u)) (seq 0 (arity fs f))) -> w < arity fs f).
    { intros w Hw. apply filter_In in Hw. destruct Hw as [Hw _]. apply in_seq in Hw. lia. }
    revert Hl Hin. generalize (filter (fun u' => negb (u' =? u)) (seq 0 (arity fs f))). intros l.
    destruct (Hp f Hf) as [bp Ep].
    generalize (K - 1). intros k Hl Hin.
    assert (G : exists b, forall c, c < length (sf_configs (factor_at fs f)) ->
      (b <= rsum (map (fun w => v f w (config_at_slot fs f c w)) l) - rsum (map (fun w => v' f w (config_at_slot fs f c w)) l) <= b + INR k * x)%R).
    { revert k Hl. induction l as [|w l IH]; intros k Hl.
      - exists 0%R. intros c _. cbn [map]. rewrite rsum_nil. pose proof (Rmult_le_pos _ _ (pos_INR k) Hx). lra.
      - destruct k as [|k]; [cbn in Hl; lia|]. destruct (IH (fun w' Hw' => Hin w' (or_intror Hw')) k) as [b Eb]; [cbn in Hl; lia|].
        destruct (Hv f w Hf (Hin w (or_introl eq_refl))) as [bw Ew]. exists (bw + b)%R. intros c Hc. cbn [map]. rewrite !rsum_cons, S_INR.
        specialize (Eb c Hc). specialize (Ew (config_at_slot fs f c w) (config_ok fs Hcfg f c w Hf Hc (Hin w (or_introl eq_refl)))). lra. }
    destruct G as [b Eb]. exists (bp + b)%R. intros c Hc. specialize (Eb c Hc). specialize (Ep c Hc). lra.
  Qed.
  Lemma fac_to_var_spread T pots pots' v v' p x : (0 <= T)%R -> (0 <= x)%R -> pots_spread fs pots pots' p -> msgs_spread fs v v' x ->
    msgs_spread fs (fac_to_var fs pots T v) (fac_to_var fs pots' T v') (p + INR (K - 1) * x)%R.
  Proof.
    intros HT Hx Hp Hv f u Hf Hu. destruct (scores_spread pots pots' v v' p x f u Hx Hf Hu Hp Hv) as [b Eb]. exists b. intros s Hs.
    assert (E : forall c, In c (choices fs f u s) -> (b <= score_but fs pots v f c u - score_but fs pots' v' f c u <= b + (p + INR (K - 1) * x))%R).
    { intros c Hc. apply choice_iff in Hc. apply Eb, Hc. }
    unfold fac_to_var. destruct (Req_EM_T T 0) as [H0|H0]; unfold fac_to_var_max, fac_to_var_soft.
    - apply rmaxs_between; [now apply Hcov|exact E].
    - apply soft_between; [lra|now apply Hcov|exact E].
  Qed.
  Lemma damp_spread d m m' new new' x y : (0 <= d <= 1)%R -> msgs_spread fs m m' x -> msgs_spread fs new new' y ->
    msgs_spread fs (damp d m new) (damp d m' new') (d * x + (1 - d) * y)%R.
  Proof.
    intros Hd Hm Hn f u Hf Hu. destruct (Hm f u Hf Hu) as [b Eb]. destruct (Hn f u Hf Hu) as [b' Eb']. exists (d * b + (1 - d) * b')%R.
    intros s Hs. specialize (Eb s Hs). specialize (Eb' s Hs). unfold damp.
    assert (X1 : (d * b <= d * (m f u s - m' f u s) <= d * (b + x))%R) by (split; apply Rmult_le_compat_l; lra).
    assert (X2 : ((1 - d) * b' <= (1 - d) * (new f u s - new' f u s) <= (1 - d) * (b' + y))%R) by (split; apply Rmult_le_compat_l; lra).
    lra.
  Qed.
  (** Normalising turns the spread into a distance and does not increase it. *)
  Lemma normal_spread m m' x : (forall f u, f < length fs -> u < arity fs f -> 0 < snd (var_at fs f u)) -> msgs_spread fs m m' x ->
    msgs_spread fs (normal fs m) (normal fs m') x /\ msgs_near fs (normal fs m) (normal fs m') x.
  Proof.
    intros Hpos Hm.
    assert (G : forall f u, f < length fs -> u < arity fs f -> exists b, (b <= 0 <= b + x)%R /\
      forall s, s < snd (var_at fs f u) -> (b <= normal fs m f u s - normal fs m' f u s <= b + x)%R).
    { intros f u Hf Hu. destruct (Hm f u Hf Hu) as [b Eb]. specialize (Hpos f u Hf Hu).
      set (l := seq 0 (snd (var_at fs f u))).
      assert (Hl : l <> []) by (unfold l; destruct (snd (var_at fs f u)); [lia|discriminate]).
      assert (M : (b <= rmaxs (map (m f u) l) - rmaxs (map (m' f u) l) <= b + x)%R).
      { apply rmaxs_between; [exact Hl|]. intros s Hs. apply Eb. apply in_seq in Hs. lia. }
      exists (b - (rmaxs (map (m f u) l) - rmaxs (map (m' f u) l)))%R. split; [lra|]. intros s Hs. specialize (Eb s Hs).
      unfold normal. fold l.
      assert (Q : forall y z, ((Rmax (-1000) y - Rmax (-1000) z <= Rmax 0 (y - z)) /\ (Rmin 0 (y - z) <= Rmax (-1000) y - Rmax (-1000) z))%R).
      { intros y z. unfold Rmax, Rmin. destruct (Rle_dec (-1000) y), (Rle_dec (-1000) z), (Rle_dec 0 (y - z)); lra. }
      destruct (Q (m f u s - rmaxs (map (m f u) l))%R (m' f u s - rmaxs (map (m' f u) l))%R) as [Q1 Q2].
      revert Q1 Q2. unfold Rmax at 3, Rmin. destruct (Rle_dec 0 _); lra. }
    split.
    - intros f u Hf Hu. destruct (G f u Hf Hu) as [b [_ Eb]]. now exists b.
    - intros f u s Hf Hu Hs. destruct (G f u Hf Hu) as [b [B Eb]]. specialize (Eb s Hs). apply Rabs_le. lra.
  Qed.

  Lemma drift_nonneg d m e p n : (0 <= d <= 1)%R -> (0 <= m)%R -> (0 <= e)%R -> (0 <= p)%R -> (0 <= drift D K d m e p n)%R.
  Proof.
    intros Hd Hm He Hp. induction n as [|n IH]; [exact Hm|]. cbn [drift]. cbv zeta. pose proof (pos_INR (K - 1)). pose proof (pos_INR (D - 1)).
    apply Rplus_le_le_0_compat; [apply Rmult_le_pos; lra|]. apply Rmult_le_pos; [lra|]. apply Rplus_le_le_0_compat; [exact Hp|].
    apply Rmult_le_pos; [lra|]. apply Rplus_le_le_0_compat; [exact He|]. now apply Rmult_le_pos.
  Qed.
End Step.

(** ** Textbook runs *)
Lemma text_drift {A} (fs : list (sfactor A)) D K T d pots pots' ev ev' m0 m0' m e p n :
  configs_ok fs -> (0 < n -> covered fs) -> degrees fs D K -> (forall f u, f < length fs -> u < arity fs f -> 0 < snd (var_at fs f u)) ->
  (0 <= T)%R -> (0 <= d <= 1)%R -> (0 <= m)%R -> (0 <= e)%R -> (0 <= p)%R ->
  msgs_spread fs m0 m0' m -> ev_spread fs ev ev' e -> pots_spread fs pots pots' p ->
  msgs_spread fs (text_bp fs pots T d ev m0 n) (text_bp fs pots' T d ev' m0' n) (drift D K d m e p n) /\
  msgs_near fs (text_bp fs pots T d ev m0 n) (text_bp fs pots' T d ev' m0' n) (drift D K d m e p n).
Proof.
  intros Hcfg Hcov Hdeg Hpos HT Hd Hm He Hp Sm Se Sp. induction n as [|n IH].
  - now apply normal_spread.
  - specialize (Hcov (Nat.lt_0_succ n)). destruct (IH (fun _ => Hcov)) as [IH1 _].
    change (text_bp fs pots T d ev m0 (S n)) with (text_step fs pots T d ev (text_bp fs pots T d ev m0 n)).
    change (text_bp fs pots' T d ev' m0' (S n)) with (text_step fs pots' T d ev' (text_bp fs pots' T d ev' m0' n)).
    unfold text_step. apply normal_spread; [exact Hpos|]. cbn [drift]. cbv zeta.
    pose proof (drift_nonneg D K d m e p n Hd Hm He Hp) as Hx. pose proof (pos_INR (D - 1)) as HD.
    apply damp_spread; [exact Hd|exact IH1|]. apply (fac_to_var_spread fs D K); auto.
    + apply Rplus_le_le_0_compat; [exact He|now apply Rmult_le_pos].
    + now apply (var_to_fac_spread fs D K).
Qed.

(** ** Runs on a graph *)
Section Graph.
  Context (vgs : list vgroup) (g : fgraph R) (T : R) (c : bp_ctx R).
  Hypothesis Hok : groups_ok vgs.
  Hypothesis Hr : reachable vgs g.
  Hypothesis Hwf : wf_groups (gr_groups g).
  Hypothesis Hbp : bp_of g T c.
  Context (a a' : bp_arrays R).
  Hypothesis Ha : arrays_of c a.
  Hypothesis Ha' : arrays_of c a'.
  Let fs := graph_factors 0%R (gr_groups g).
  Let pots b := graph_pots (gr_groups g) (ba_log_potentials b).
  Let ne := length (enum_factors (gr_groups g)).
  Let lens := map snd (sf_edges fs).
  Let evs b := read_ev (gr_vars_to_starts g) (ba_evidence b).
  Let msgs b := read_msgs fs (ba_ftov_msgs b).
  Context (D K : nat) (d m e p : R).
  Hypothesis Hdeg : degrees fs D K.
  Hypothesis HT : (0 <= T)%R.
  Hypothesis Hd : (0 <= d <= 1)%R.
  Hypothesis Hm : (0 <= m)%R.
  Hypothesis He : (0 <= e)%R.
  Hypothesis Hp : (0 <= p)%R.
  Hypothesis Sm : msgs_spread fs (msgs a) (msgs a') m.
  Hypothesis Se : ev_spread fs (evs a) (evs a') e.
  Hypothesis Sp : pots_spread fs (pots a) (pots a') p.
  Hypothesis Hsup : supported lens.
  Let ranged n := forall b, b = a \/ b = a' -> forall i,
    (i <= n -> above_floor lens (unnormalised c b d i)) /\
    (i < n -> in_range fs (pots b) ne T (var_to_fac fs (evs b) (text_bp fs (pots b) T d (evs b) (msgs b) i))).

  Lemma C48_lemma n : ranged n -> msgs_near fs (msgs (run_bp c a n d)) (msgs (run_bp c a' n d)) (drift D K d m e p n).
  Proof.
    intros H f u s Hf Hu Hs.
    assert (E : forall b, b = a \/ b = a' -> msgs (run_bp c b n d) f u s = text_bp fs (pots b) T d (evs b) (msgs b) n f u s).
    { intros b Hb. assert (Hab : arrays_of c b) by (destruct Hb; subst; assumption).
      apply (C39_lemma vgs g T c Hok Hr Hwf Hbp b Hab d n Hsup); auto; intros i Hi; apply (H b Hb i); exact Hi. }
    rewrite (E a), (E a') by auto. apply (text_drift fs D K T d (pots a) (pots a') (evs a) (evs a') (msgs a) (msgs a') m e p n); auto.
    - now apply graph_configs_ok.
    - intros Hn. destruct (H a (or_introl eq_refl) 0) as [_ H0]. exact (in_range_covered g T Hwf a _ (H0 Hn)).
    - apply positive_states. exact Hsup.
  Qed.
  Lemma C48_bounded_lemma B P B' P' D1 K1 n :
    moderate fs (pots a) ne (evs a) B P D1 K1 -> moderate fs (pots a') ne (evs a') B' P' D1 K1 ->
    above_floor lens (ba_ftov_msgs a) -> above_floor lens (ba_ftov_msgs a') -> ranged n.
  Proof.
    intros M M' Hfl Hfl' b [-> | ->] i; split; intros Hi.
    - apply (above_floor_run vgs g T c Hok Hr Hwf Hbp a Ha B P D1 K1 M HT Hsup Hfl d Hd n). exact Hi.
    - apply (in_range_text g T Hwf a B P D1 K1 M).
    - apply (above_floor_run vgs g T c Hok Hr Hwf Hbp a' Ha' B' P' D1 K1 M' HT Hsup Hfl' d Hd n). exact Hi.
    - apply (in_range_text g T Hwf a' B' P' D1 K1 M').
  Qed.

  Lemma run_arrays b n : arrays_of c b -> arrays_of c (run_bp c b n d).
  Proof.
    intros Hb. destruct (run_length vgs g T c Hok Hr Hwf Hbp b Hb d n) as [L _]. destruct (arrays_lengths vgs g T c Hok Hr Hwf Hbp b Hb) as [_ [L2 _]].
    destruct Hb as [A1 [A2 A3]]. split; [exact A1|]. split; [|exact A3]. rewrite L, <- A2. now rewrite L2.
  Qed.
  Lemma belief_spread n x : ranged n -> spread (snd x) (evs a x) (evs a' x) e ->
    spread (snd x) (text_belief fs (evs a) (msgs (run_bp c a n d)) x) (text_belief fs (evs a') (msgs (run_bp c a' n d)) x) (e + INR D * drift D K d m e p n)%R.
  Proof.
    intros H Sx. pose proof (C48_lemma n H) as N. unfold text_belief.
    apply (spread_plus _ (evs a x) (evs a' x)); [exact Sx|].
    assert (Hx : (0 <= drift D K d m e p n)%R) by (now apply drift_nonneg).
    apply (spread_sum _ (fun fu => msgs (run_bp c a n d) (fst fu) (snd fu)) (fun fu => msgs (run_bp c a' n d) (fst fu) (snd fu))); [exact Hx|apply (proj1 Hdeg)|].
    intros [f u] Hi. apply In_slots_of in Hi. destruct Hi as [H1 [H2 H3]]. cbn [fst snd].
    (* messages of normalised runs: the difference changes sign, so its spread is the drift *)
    assert (G : msgs_spread fs (text_bp fs (pots a) T d (evs a) (msgs a) n) (text_bp fs (pots a') T d (evs a') (msgs a') n) (drift D K d m e p n)).
    { apply (text_drift fs D K T d (pots a) (pots a') (evs a) (evs a') (msgs a) (msgs a') m e p n); auto.
      - now apply graph_configs_ok.
      - intros Hn. destruct (H a (or_introl eq_refl) 0) as [_ H0]. exact (in_range_covered g T Hwf a _ (H0 Hn)).
      - apply positive_states. exact Hsup. }
    specialize (G f u H1 H2). rewrite H3 in G. revert G. apply spread_ext; intros s Hs; symmetry.
    - apply (C39_lemma vgs g T c Hok Hr Hwf Hbp a Ha d n Hsup); try (intros i Hi; apply (H a (or_introl eq_refl) i); exact Hi); auto. fold fs. now rewrite H3.
    - apply (C39_lemma vgs g T c Hok Hr Hwf Hbp a' Ha' d n Hsup); try (intros i Hi; apply (H a' (or_intror eq_refl) i); exact Hi); auto. fold fs. now rewrite H3.
  Qed.
  Lemma first_best_spread (b b' : nat -> R) n x s t : spread n b b' x -> s < n ->
    (forall u, u < n -> u <> s -> (b u + x < b s)%R) -> first_best b' n t -> t = s.
  Proof.
    intros [k H] Hs Hg [T1 [T2 T3]]. destruct (Nat.eq_dec t s) as [E|E]; [exact E|exfalso].
    specialize (Hg t T1 E). specialize (T2 s Hs). pose proof (H s Hs). pose proof (H t T1). lra.
  Qed.
  Lemma C48_decode_lemma n : ranged n ->
    (forall gr n, In gr vgs -> In n (vg_num_states gr) -> 0 < n) -> (forall gr, In gr vgs -> one_state gr = false) ->
    (forall x, In x (all_vars vgs) -> spread (snd x) (evs a x) (evs a' x) e) ->
    exists r q r' q', get_beliefs c (run_bp c a n d) = Ok r /\ decode_map_states r = Ok q /\
      get_beliefs c (run_bp c a' n d) = Ok r' /\ decode_map_states r' = Ok q' /\
    forall gr, In gr vgs -> exists b y y', dget vg_eqb gr r = Some b /\ dget vg_eqb gr q = Some y /\ dget vg_eqb gr q' = Some y' /\
      forall i x s bs, nth_error (vg_variables gr) i = Some x -> s < snd x -> nth_error (row gr b i) s = Some (Fin bs) ->
      (forall t bt, t < snd x -> t <> s -> nth_error (row gr b i) t = Some (Fin bt) -> (bt + (e + INR D * drift D K d m e p n) < bs)%R) ->
      cell gr y i = [s] /\ cell gr y' i = [s].
  Proof.
    intros H Hpos Hone Sx.
    destruct (C34_lemma vgs g T c Hok Hr Hwf Hbp _ (run_arrays a n Ha) Hpos Hone) as [r [q [Er [Eq [_ Dq]]]]].
    destruct (C34_lemma vgs g T c Hok Hr Hwf Hbp _ (run_arrays a' n Ha') Hpos Hone) as [r' [q' [Er' [Eq' [_ Dq']]]]].
    destruct (C33_lemma vgs g T c Hok Hr Hwf Hbp _ (run_arrays a n Ha) Hpos) as [r2 [Er2 [_ Dr]]]. rewrite Er in Er2. injection Er2 as <-.
    exists r, q, r', q'. do 4 (split; [assumption|]). intros gr Hg.
    destruct (Dq gr Hg) as [y [Ey [_ Cy]]]. destruct (Dq' gr Hg) as [y' [Ey' [_ Cy']]]. destruct (Dr gr Hg) as [b [Eb [_ Rb]]].
    exists b, y, y'. do 3 (split; [assumption|]). intros i x s bs Hi Hs Es Hgap. rewrite (Rb i x Hi) in Es, Hgap.
    set (bel := text_belief fs (evs a) (msgs (run_bp c a n d)) x).
    assert (Hn : forall t, t < snd x -> nth_error (map (fun t => Fin (bel t)) (seq 0 (snd x)) ++ repeat NInf (state_axis gr i - snd x)) t = Some (Fin (bel t))).
    { intros t Ht. rewrite nth_error_app1 by (rewrite map_length, seq_length; exact Ht). apply (map_nth_error (fun t => Fin (bel t)) t (seq 0 (snd x))).
      rewrite (nth_error_nth' _ 0) by (rewrite seq_length; exact Ht). now rewrite seq_nth. }
    assert (Ebs : bel s = bs). { pose proof (eq_trans (eq_sym (Hn s Hs)) Es) as E. now injection E. }
    assert (Hx : In x (all_vars vgs)).
    { unfold all_vars. apply in_concat. exists (vg_variables gr). split; [now apply in_map|]. eapply nth_error_In. exact Hi. }
    assert (Gap : forall t, t < snd x -> t <> s -> (bel t + (e + INR D * drift D K d m e p n) < bel s)%R).
    { intros t Ht Hne. rewrite Ebs. apply (Hgap t (bel t) Ht Hne). exact (Hn t Ht). }
    assert (Hb : (0 <= e + INR D * drift D K d m e p n)%R).
    { apply Rplus_le_le_0_compat; [exact He|]. apply Rmult_le_pos; [apply pos_INR|now apply drift_nonneg]. }
    destruct (Cy i x Hi) as [t [-> Ft]]. destruct (Cy' i x Hi) as [t' [-> Ft']]. split; f_equal.
    - refine (first_best_spread bel bel (snd x) _ s t _ Hs Gap Ft). eapply spread_mono; [exact Hb|apply spread_zero].
    - refine (first_best_spread bel _ (snd x) _ s t' _ Hs Gap Ft'). apply belief_spread; auto.
  Qed.
End Graph.

(** Constants on evidence, potentials and initial messages change nothing. *)
Lemma drift_zero D K d n : drift D K d 0 0 0 n = 0%R.
Proof. induction n as [|n IH]; [reflexivity|]. cbn [drift]. cbv zeta. rewrite IH. ring. Qed.
Lemma near_zero {A} (fs : list (sfactor A)) m m' : msgs_near fs m m' 0 -> msg_eq fs m m'.
Proof. intros H f u s Hf Hu Hs. specialize (H f u s Hf Hu Hs). apply Rabs_between in H. lra. Qed.
Lemma In_list_sum k l : In k l -> k <= list_sum l.
Proof. induction l as [|x l IH]; intros H; [destruct H|]. change (list_sum (x :: l)) with (x + list_sum l). destruct H as [->|H]; [lia|]. specialize (IH H). lia. Qed.
Lemma degrees_exist {A} (fs : list (sfactor A)) : exists D K, degrees fs D K.
Proof.
  exists (length (slots fs)), (list_sum (map (arity fs) (seq 0 (length fs)))). split.
  - intros x. unfold slots_of. apply filter_length_le.
  - intros f Hf. apply In_list_sum. apply in_map. apply in_seq. lia.
Qed.

Section Constants.
  Context (vgs : list vgroup) (g : fgraph R) (T : R) (c : bp_ctx R).
  Hypothesis Hok : groups_ok vgs.
  Hypothesis Hr : reachable vgs g.
  Hypothesis Hwf : wf_groups (gr_groups g).
  Hypothesis Hbp : bp_of g T c.
  Context (a a' : bp_arrays R).
  Hypothesis Ha : arrays_of c a.
  Hypothesis Ha' : arrays_of c a'.
  Let fs := graph_factors 0%R (gr_groups g).
  Let pots b := graph_pots (gr_groups g) (ba_log_potentials b).
  Let ne := length (enum_factors (gr_groups g)).
  Let lens := map snd (sf_edges fs).
  Let evs b := read_ev (gr_vars_to_starts g) (ba_evidence b).
  Let msgs b := read_msgs fs (ba_ftov_msgs b).
  Lemma C48_constants_lemma (km : nat -> nat -> R) (ke : variable -> R) (kp : nat -> R) d n :
    (0 <= T)%R -> (0 <= d <= 1)%R -> supported lens ->
    (forall f u s, f < length fs -> u < arity fs f -> s < snd (var_at fs f u) -> msgs a' f u s = (msgs a f u s + km f u)%R) ->
    (forall x s, In x (all_vars vgs) -> s < snd x -> evs a' x s = (evs a x s + ke x)%R) ->
    (forall f k, f < ne -> k < length (sf_configs (factor_at fs f)) -> pots a' f k = (pots a f k + kp f)%R) ->
    (forall b, b = a \/ b = a' -> forall i,
      (i <= n -> above_floor lens (unnormalised c b d i)) /\
      (i < n -> in_range fs (pots b) ne T (var_to_fac fs (evs b) (text_bp fs (pots b) T d (evs b) (msgs b) i)))) ->
    ba_ftov_msgs (run_bp c a' n d) = ba_ftov_msgs (run_bp c a n d).
  Proof.
    intros HT Hd Hsup Em Ee Ep H. apply (read_ext fs).
    - apply (run_length vgs g T c Hok Hr Hwf Hbp a' Ha').
    - apply (run_length vgs g T c Hok Hr Hwf Hbp a Ha).
    - destruct (degrees_exist fs) as [D [K Hdeg]]. apply msg_eq_sym, near_zero. rewrite <- (drift_zero D K d n).
      apply (C48_lemma vgs g T c Hok Hr Hwf Hbp a a' Ha Ha' D K d 0 0 0); auto; try apply Rle_refl.
      + intros f u Hf Hu. exists (- km f u)%R. intros s Hs. change (- km f u <= msgs a f u s - msgs a' f u s <= - km f u + 0)%R. rewrite (Em f u s Hf Hu Hs). lra.
      + intros x Hx. exists (- ke x)%R. intros s Hs. change (- ke x <= evs a x s - evs a' x s <= - ke x + 0)%R. rewrite (Ee x s (edges_vars vgs g T c Hok Hr Hwf Hbp x Hx) Hs). lra.
      + intros f Hf. destruct (Nat.lt_ge_cases f ne) as [Hl|Hl].
        * exists (- kp f)%R. intros k Hk. change (- kp f <= pots a f k - pots a' f k <= - kp f + 0)%R. rewrite (Ep f k Hl Hk). lra.
        * exists 0%R. intros k Hk. unfold graph_pots. assert (E : (f <? length (enum_factors (gr_groups g))) = false) by (apply Nat.ltb_ge; exact Hl). rewrite E. lra.
  Qed.
End Constants.

(** With hypotheses about the inputs only. *)
Section Bounded.
  Context (vgs : list vgroup) (g : fgraph R) (T : R) (c : bp_ctx R).
  Hypothesis Hok : groups_ok vgs.
  Hypothesis Hr : reachable vgs g.
  Hypothesis Hwf : wf_groups (gr_groups g).
  Hypothesis Hbp : bp_of g T c.
  Context (a a' : bp_arrays R).
  Hypothesis Ha : arrays_of c a.
  Hypothesis Ha' : arrays_of c a'.
  Let fs := graph_factors 0%R (gr_groups g).
  Let pots b := graph_pots (gr_groups g) (ba_log_potentials b).
  Let ne := length (enum_factors (gr_groups g)).
  Let lens := map snd (sf_edges fs).
  Let evs b := read_ev (gr_vars_to_starts g) (ba_evidence b).
  Let msgs b := read_msgs fs (ba_ftov_msgs b).
  Context (D K : nat) (d m e p : R).
  Hypothesis Hdeg : degrees fs D K.
  Hypothesis HT : (0 <= T)%R.
  Hypothesis Hd : (0 <= d <= 1)%R.
  Hypothesis Hm : (0 <= m)%R.
  Hypothesis He : (0 <= e)%R.
  Hypothesis Hp : (0 <= p)%R.
  Hypothesis Sm : msgs_spread fs (msgs a) (msgs a') m.
  Lemma C48_bounded_messages :
    ev_spread fs (evs a) (evs a') e -> pots_spread fs (pots a) (pots a') p ->
    forall B P B' P' D1 K1,
    moderate fs (pots a) ne (evs a) B P D1 K1 -> moderate fs (pots a') ne (evs a') B' P' D1 K1 ->
    supported lens -> above_floor lens (ba_ftov_msgs a) -> above_floor lens (ba_ftov_msgs a') ->
    forall n, msgs_near fs (msgs (run_bp c a n d)) (msgs (run_bp c a' n d)) (drift D K d m e p n).
  Proof.
    intros Se Sp B P B' P' D1 K1 M M' Hsup Hfl Hfl' n. apply (C48_lemma vgs g T c Hok Hr Hwf Hbp a a' Ha Ha' D K d m e p); auto.
    now apply (C48_bounded_lemma vgs g T c Hok Hr Hwf Hbp a a' Ha Ha' d HT Hd Hsup B P B' P' D1 K1).
  Qed.
  Lemma C48_bounded_decode :
    (forall x, In x (all_vars vgs) -> spread (snd x) (evs a x) (evs a' x) e) -> pots_spread fs (pots a) (pots a') p ->
    forall B P B' P' D1 K1,
    moderate fs (pots a) ne (evs a) B P D1 K1 -> moderate fs (pots a') ne (evs a') B' P' D1 K1 ->
    supported lens -> above_floor lens (ba_ftov_msgs a) -> above_floor lens (ba_ftov_msgs a') ->
    (forall gr n, In gr vgs -> In n (vg_num_states gr) -> 0 < n) -> (forall gr, In gr vgs -> one_state gr = false) ->
    forall n, exists r q r' q',
      get_beliefs c (run_bp c a n d) = Ok r /\ decode_map_states r = Ok q /\
      get_beliefs c (run_bp c a' n d) = Ok r' /\ decode_map_states r' = Ok q' /\
    forall gr, In gr vgs -> exists b y y', dget vg_eqb gr r = Some b /\ dget vg_eqb gr q = Some y /\ dget vg_eqb gr q' = Some y' /\
      forall i x s bs, nth_error (vg_variables gr) i = Some x -> s < snd x -> nth_error (row gr b i) s = Some (Fin bs) ->
      (forall t bt, t < snd x -> t <> s -> nth_error (row gr b i) t = Some (Fin bt) -> (bt + (e + INR D * drift D K d m e p n) < bs)%R) ->
      cell gr y i = [s] /\ cell gr y' i = [s].
  Proof.
    intros Sx Sp B P B' P' D1 K1 M M' Hsup Hfl Hfl' Hpos Hone n. apply (C48_decode_lemma vgs g T c Hok Hr Hwf Hbp a a' Ha Ha' D K d m e p); auto.
    - intros x Hx. apply Sx. now apply (edges_vars vgs g T c Hok Hr Hwf Hbp).
    - now apply (C48_bounded_lemma vgs g T c Hok Hr Hwf Hbp a a' Ha Ha' d HT Hd Hsup B P B' P' D1 K1).
  Qed.
End Bounded.
