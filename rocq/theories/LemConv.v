(** * Proofs about convergence at high temperature (C56). *)
From Verif Require Import NumPy Lists VGroup FGroup FGraph BPState BP SpecVGroup SpecFGraph SpecFactor SpecWiring SpecState SpecBP SpecText SpecBeliefs SpecStable SpecConv.
From Verif Require Import LemFGraph LemFactor LemState LemGraph LemNum LemNorm LemVtoF LemEnum LemLogBP LemText LemRun LemIter LemBeliefs LemShift LemStable LemTemp.
From Coq Require Import Reals Lra Lia Permutation.
Local Open Scope nat_scope.

(** ** Weighted sums *)
Lemma exp_concave t eps : (0 <= eps <= 1)%R -> (exp (eps * t) <= 1 + eps * (exp t - 1))%R.
Proof.
  intros He. pose proof (exp_tangent (eps * t) t) as H1. pose proof (exp_tangent (eps * t) 0) as H2. rewrite exp_0 in H2.
  assert (X1 : (eps * (exp (eps * t) * (1 + (t - eps * t))) <= eps * exp t)%R) by (apply Rmult_le_compat_l; lra).
  assert (X2 : ((1 - eps) * (exp (eps * t) * (1 + (0 - eps * t))) <= (1 - eps) * 1)%R) by (apply Rmult_le_compat_l; lra). nra.
Qed.
Lemma mixing_bounds w T : (0 < T)%R -> (0 <= w)%R -> (0 <= mixing w T < 1)%R.
Proof.
  intros HT Hw. unfold mixing. pose proof (exp_pos (- (2 * w / T))).
  assert (exp (- (2 * w / T)) <= 1)%R; [|lra]. rewrite <- exp_0. apply exp_le.
  assert (0 <= 2 * w / T)%R by (apply Rmult_le_pos; [lra|left; now apply Rinv_0_lt_compat]). lra.
Qed.
(** Two sums with potentials [p] and [p'] within [w] of each other, and two messages [g] and
    [g'] with differences in an interval of length [m]. *)
Lemma soft_mix {X} T (p p' g g' : X -> R) l w b m : (0 < T)%R -> l <> [] -> (0 <= w)%R ->
  (forall x, In x l -> (- w <= p' x - p x <= w)%R) -> (forall x, In x l -> (b <= g x - g' x <= b + m)%R) ->
  let E p g := (T * ln (rsum (map (fun x => exp ((p x + g x) / T)) l)))%R in
  ((E p g - E p g') - (E p' g - E p' g') <= mixing w T * m)%R.
Proof.
  intros HT Hn Hw Hp Hg E.
  assert (Hm : (0 <= m)%R) by (destruct l as [|x l]; [contradiction|]; specialize (Hg x (or_introl eq_refl)); lra).
  set (q := exp (- (w / T))). set (beta := exp (b / T)).
  assert (Hq : (0 < q)%R) by apply exp_pos. assert (Hb : (0 < beta)%R) by apply exp_pos.
  set (W := rsum (map (fun x => exp ((p x + g' x) / T)) l)). set (W' := rsum (map (fun x => exp ((p' x + g' x) / T)) l)).
  set (H := rsum (map (fun x => exp ((p x + g x) / T)) l)). set (H' := rsum (map (fun x => exp ((p' x + g x) / T)) l)).
  assert (PW : (0 < W)%R) by (apply (sum_exp_pos T (fun x => p x + g' x)%R); exact Hn).
  assert (PW' : (0 < W')%R) by (apply (sum_exp_pos T (fun x => p' x + g' x)%R); exact Hn).
  assert (PH : (0 < H)%R) by (apply (sum_exp_pos T (fun x => p x + g x)%R); exact Hn).
  assert (PH' : (0 < H')%R) by (apply (sum_exp_pos T (fun x => p' x + g x)%R); exact Hn).
  assert (Dv : forall y z, (y <= z -> y / T <= z / T)%R).
  { intros y z Hyz. apply Rmult_le_compat_r; [left; now apply Rinv_0_lt_compat|exact Hyz]. }
  (* weights with the other potentials *)
  assert (Q1 : (q * W' <= W)%R).
  { unfold W, W'. rewrite <- rsum_scal. apply rsum_le. intros x Hx. unfold q. rewrite <- exp_plus. apply exp_le.
    replace (- (w / T) + (p' x + g' x) / T)%R with ((- w + (p' x + g' x)) / T)%R by (field; lra). apply Dv. specialize (Hp x Hx). lra. }
  (* the ratio of a term *)
  assert (T1 : forall (r : X -> R) x, exp ((r x + g x) / T) = (exp ((r x + g' x) / T) * exp ((g x - g' x) / T))%R).
  { intros r x. rewrite <- exp_plus. f_equal. field. lra. }
  assert (B1 : forall x, In x l -> (beta <= exp ((g x - g' x) / T) <= beta * exp (m / T))%R).
  { intros x Hx. specialize (Hg x Hx). unfold beta. rewrite <- exp_plus. split; apply exp_le; [apply Dv; lra|].
    replace (b / T + m / T)%R with ((b + m) / T)%R by (field; lra). apply Dv. lra. }
  assert (L1 : (beta * W <= H)%R).
  { unfold W, H. rewrite <- rsum_scal. apply rsum_le. intros x Hx. rewrite T1. rewrite Rmult_comm. apply Rmult_le_compat_l; [left; apply exp_pos|apply B1; exact Hx]. }
  assert (L2 : (H <= beta * exp (m / T) * W)%R).
  { unfold W, H. rewrite <- rsum_scal. apply rsum_le. intros x Hx. rewrite T1. rewrite (Rmult_comm (beta * _)). apply Rmult_le_compat_l; [left; apply exp_pos|apply B1; exact Hx]. }
  assert (L3 : (q * (H - beta * W) <= H' - beta * W')%R).
  { assert (Z0 : (q * H + beta * W' <= H' + q * beta * W)%R); [|lra].
    unfold W, H, W', H'. rewrite <- !rsum_scal, <- !rsum_plus. apply rsum_le. intros x Hx. rewrite !T1.
    destruct (B1 x Hx) as [B2 _]. set (h := exp ((g x - g' x) / T)) in *.
    assert (Z : (q * exp ((p x + g' x) / T) <= exp ((p' x + g' x) / T))%R).
    { unfold q. rewrite <- exp_plus. apply exp_le. replace (- (w / T) + (p x + g' x) / T)%R with ((- w + (p x + g' x)) / T)%R by (field; lra). apply Dv. specialize (Hp x Hx). lra. }
    set (k := exp ((p x + g' x) / T)) in *. set (k' := exp ((p' x + g' x) / T)) in *.
    assert (Y : (q * k * (h - beta) <= k' * (h - beta))%R) by (apply Rmult_le_compat_r; lra). lra. }
  set (y := (H / (beta * W))%R). set (y' := (H' / (beta * W'))%R).
  assert (PbW : (0 < beta * W)%R) by now apply Rmult_lt_0_compat. assert (PbW' : (0 < beta * W')%R) by now apply Rmult_lt_0_compat.
  assert (Ey : (y * (beta * W) = H)%R) by (unfold y; field; lra). assert (Ey' : (y' * (beta * W') = H')%R) by (unfold y'; field; lra).
  assert (Y1 : (1 <= y)%R) by (apply (Rmult_le_reg_r (beta * W)); lra).
  assert (Y2 : (y <= exp (m / T))%R) by (apply (Rmult_le_reg_r (beta * W)); lra).
  assert (Y3 : (1 + q * q * (y - 1) <= y')%R).
  { apply (Rmult_le_reg_r (beta * W')); [exact PbW'|]. rewrite Ey'.
    assert (Z1 : (q * (y - 1) * (beta * W) <= H' - beta * W')%R) by (replace (q * (y - 1) * (beta * W))%R with (q * (y * (beta * W) - beta * W))%R by ring; rewrite Ey; exact L3).
    assert (Z2 : (q * (y - 1) * (beta * (q * W')) <= q * (y - 1) * (beta * W))%R).
    { apply Rmult_le_compat_l; [apply Rmult_le_pos; lra|]. apply Rmult_le_compat_l; [lra|exact Q1]. }
    lra. }
  assert (Eq : (q * q = exp (- (2 * w / T)))%R) by (unfold q; rewrite <- exp_plus; f_equal; field; lra).
  assert (Hlt : (0 <= mixing w T < 1)%R) by (apply mixing_bounds; assumption).
  assert (Py : (0 < y)%R) by lra. assert (Py' : (0 < y')%R) by (assert (0 <= q * q * (y - 1))%R by (apply Rmult_le_pos; [apply Rmult_le_pos; lra|lra]); lra).
  assert (C1 : (ln y - ln y' <= mixing w T * ln y)%R).
  { assert (Z : (q * q * ln y <= ln y')%R); [|unfold mixing; rewrite <- Eq; lra].
    rewrite <- (ln_exp (q * q * ln y)). apply ln_le_mono; [apply exp_pos|]. eapply Rle_trans; [apply exp_concave|rewrite exp_ln by exact Py; exact Y3].
    rewrite Eq. unfold mixing in Hlt. lra. }
  assert (C2 : (T * ln y <= m)%R).
  { assert (Z : (ln y <= m / T)%R) by (rewrite <- (ln_exp (m / T)); now apply ln_le_mono).
    apply (Rmult_le_compat_l T) in Z; [|lra]. replace (T * (m / T))%R with m in Z by (field; lra). exact Z. }
  assert (E1 : (E p g - E p g' = T * ln y + T * ln beta)%R).
  { unfold E. fold H. fold W. rewrite <- Ey, !ln_mult by assumption. ring. }
  assert (E2 : (E p' g - E p' g' = T * ln y' + T * ln beta)%R).
  { unfold E. fold H'. fold W'. rewrite <- Ey', !ln_mult by assumption. ring. }
  rewrite E1, E2. apply (Rmult_le_compat_l T) in C1; [|lra].
  assert (C3 : (mixing w T * (T * ln y) <= mixing w T * m)%R) by (apply Rmult_le_compat_l; [lra|exact C2]). lra.
Qed.
Lemma spread_pairs n h h' e : (forall s s', s < n -> s' < n -> ((h s - h' s) - (h s' - h' s') <= e)%R) -> spread n h h' e.
Proof.
  intros H. destruct n as [|n]; [exists 0%R; intros s Hs; lia|].
  set (l := map (fun s => h' s - h s)%R (seq 0 (S n))).
  assert (Hi : In (rmaxs l) l) by (apply rmaxs_In; discriminate). unfold l in Hi at 2. apply in_map_iff in Hi. destruct Hi as [s0 [E0 H0]]. apply in_seq in H0.
  exists (- rmaxs l)%R. intros s Hs. specialize (H s s0 Hs ltac:(lia)).
  assert (h' s - h s <= rmaxs l)%R by (apply rmaxs_ub; unfold l; apply (in_map (fun s => h' s - h s)%R), in_seq; lia). lra.
Qed.

Lemma nth_of_seq {X} (h : nat -> X) n x i : i < n -> nth i (map h (seq 0 n)) x = h i.
Proof. intros Hi. rewrite (nth_indep _ _ (h 0)) by (now rewrite map_length, seq_length). now rewrite map_nth, seq_nth. Qed.

(** ** Factors with all configurations *)
Section Full.
  Context {A : Type} (fs : list (sfactor A)).
  Hypothesis Hcfg : configs_ok fs.
  Hypothesis Hall : all_configs fs.
  (** The configuration with variable [u] changed to [s]. *)
  Let same f u s c c' := (config_at_slot fs f c' u =? s) && forallb (fun v => (v =? u) || (config_at_slot fs f c' v =? config_at_slot fs f c v)) (seq 0 (arity fs f)).
  Let move f u s c := hd 0 (filter (same f u s c) (seq 0 (length (sf_configs (factor_at fs f))))).
  Lemma same_iff f u s c c' : same f u s c c' = true <->
    config_at_slot fs f c' u = s /\ forall v, v < arity fs f -> v <> u -> config_at_slot fs f c' v = config_at_slot fs f c v.
  Proof.
    unfold same. rewrite andb_true_iff, Nat.eqb_eq, forallb_forall. split; intros [H1 H2]; (split; [exact H1|]).
    - intros v Hv Hne. specialize (H2 v ltac:(apply in_seq; lia)). apply orb_true_iff in H2. destruct H2 as [H2|H2]; apply Nat.eqb_eq in H2; congruence.
    - intros v Hv. apply in_seq in Hv. apply orb_true_iff. destruct (Nat.eq_dec v u) as [E|E]; [left; now apply Nat.eqb_eq|right; apply Nat.eqb_eq; apply H2; lia].
  Qed.
  Lemma config_eq f c c' : f < length fs -> c < length (sf_configs (factor_at fs f)) -> c' < length (sf_configs (factor_at fs f)) ->
    (forall v, v < arity fs f -> config_at_slot fs f c v = config_at_slot fs f c' v) -> c = c'.
  Proof.
    intros Hf Hc Hc' H. destruct (Hall f Hf) as [Hnd _]. apply (proj1 (NoDup_nth _ []) Hnd c c' Hc Hc').
    destruct (Hcfg f c 0 Hf Hc) as [L _]. destruct (Hcfg f c' 0 Hf Hc') as [L' _]. apply (nth_ext _ _ 0%Z 0%Z); [congruence|]. intros v Hv. rewrite L in Hv.
    specialize (H v Hv). unfold config_at_slot in H. destruct (Hcfg f c v Hf Hc) as [_ B]. destruct (Hcfg f c' v Hf Hc') as [_ B']. specialize (B Hv). specialize (B' Hv). lia.
  Qed.
  Lemma move_ok f u s c : f < length fs -> c < length (sf_configs (factor_at fs f)) -> u < arity fs f -> s < snd (var_at fs f u) ->
    move f u s c < length (sf_configs (factor_at fs f)) /\ same f u s c (move f u s c) = true.
  Proof.
    intros Hf Hc Hu Hs. destruct (Hall f Hf) as [_ Hin].
    set (cfg := map (fun v => if v =? u then Z.of_nat s else Z.of_nat (config_at_slot fs f c v)) (seq 0 (arity fs f))).
    assert (Hn : forall v, v < arity fs f -> nth v cfg 0%Z = if v =? u then Z.of_nat s else Z.of_nat (config_at_slot fs f c v)).
    { intros v Hv. unfold cfg. now apply (nth_of_seq (fun v => _)). }
    assert (I : In cfg (sf_configs (factor_at fs f))).
    { apply Hin; [unfold cfg; now rewrite map_length, seq_length|]. intros v Hv. rewrite Hn by exact Hv. destruct (Nat.eqb_spec v u) as [->|Hne]; [lia|].
      pose proof (config_ok fs Hcfg f c v Hf Hc Hv). lia. }
    apply (In_nth _ _ []) in I. destruct I as [c' [Hc' Ec']].
    assert (S' : same f u s c c' = true).
    { apply same_iff. unfold config_at_slot at 1 2. rewrite Ec'. split; [rewrite Hn, Nat.eqb_refl by exact Hu; lia|].
      intros v Hv Hne. rewrite Hn by exact Hv. destruct (Nat.eqb_spec v u); [contradiction|]. lia. }
    unfold move. assert (F : In c' (filter (same f u s c) (seq 0 (length (sf_configs (factor_at fs f)))))) by (apply filter_In; split; [apply in_seq; lia|exact S']).
    destruct (filter (same f u s c) (seq 0 (length (sf_configs (factor_at fs f))))) as [|x l] eqn:El; [destruct F|]. cbn [hd].
    assert (G : In x (x :: l)) by now left. rewrite <- El in G. apply filter_In in G. destruct G as [G1 G2]. apply in_seq in G1. split; [lia|exact G2].
  Qed.
  Lemma move_perm f u s s' : f < length fs -> u < arity fs f -> s < snd (var_at fs f u) -> s' < snd (var_at fs f u) ->
    Permutation (map (move f u s') (choices fs f u s)) (choices fs f u s').
  Proof.
    intros Hf Hu Hs Hs'. apply NoDup_Permutation.
    - apply NoDup_map_inj; [apply NoDup_filter, seq_NoDup|]. intros c c2 Hc Hc2 E. apply choice_iff in Hc, Hc2. destruct Hc as [Hc Ec], Hc2 as [Hc2 Ec2].
      destruct (move_ok f u s' c Hf Hc Hu Hs') as [_ M1]. destruct (move_ok f u s' c2 Hf Hc2 Hu Hs') as [_ M2]. apply same_iff in M1, M2.
      apply (config_eq f); auto. intros v Hv. destruct (Nat.eq_dec v u) as [->|Hne]; [congruence|].
      rewrite <- (proj2 M1 v Hv Hne), <- (proj2 M2 v Hv Hne). now rewrite E.
    - apply NoDup_filter, seq_NoDup.
    - intros c'. rewrite in_map_iff. split.
      + intros [c [<- Hc]]. apply choice_iff in Hc. destruct Hc as [Hc Ec]. destruct (move_ok f u s' c Hf Hc Hu Hs') as [M0 M1]. apply same_iff in M1. apply choice_iff. split; [exact M0|apply M1].
      + intros Hc'. apply choice_iff in Hc'. destruct Hc' as [Hc' Ec']. exists (move f u s c'). destruct (move_ok f u s c' Hf Hc' Hu Hs) as [N0 N1]. apply same_iff in N1.
        split; [|apply choice_iff; split; [exact N0|apply N1]]. destruct (move_ok f u s' (move f u s c') Hf N0 Hu Hs') as [M0 M1]. apply same_iff in M1.
        apply (config_eq f); auto. intros v Hv. destruct (Nat.eq_dec v u) as [->|Hne]; [rewrite Ec'; apply M1|]. rewrite (proj2 M1 v Hv Hne). now apply N1.
  Qed.
  Lemma all_covered : (forall f u, f < length fs -> u < arity fs f -> 0 < snd (var_at fs f u)) -> covered fs.
  Proof.
    intros Hpos f u s Hf Hu Hs. destruct (Hall f Hf) as [_ Hin].
    set (cfg := map (fun v => if v =? u then Z.of_nat s else 0%Z) (seq 0 (arity fs f))).
    assert (Hn : forall v, v < arity fs f -> nth v cfg 0%Z = if v =? u then Z.of_nat s else 0%Z).
    { intros v Hv. unfold cfg. now apply (nth_of_seq (fun v => _)). }
    assert (I : In cfg (sf_configs (factor_at fs f))).
    { apply Hin; [unfold cfg; now rewrite map_length, seq_length|]. intros v Hv. rewrite Hn by exact Hv. destruct (Nat.eqb_spec v u) as [->|Hne]; [lia|]. specialize (Hpos f v Hf Hv). lia. }
    apply (In_nth _ _ []) in I. destruct I as [c' [Hc' Ec']]. intros E. assert (G : In c' (choices fs f u s)); [|rewrite E in G; destruct G].
    apply choice_iff. split; [exact Hc'|]. unfold config_at_slot. rewrite Ec', Hn, Nat.eqb_refl by exact Hu. lia.
  Qed.

  Context (D K : nat).
  Hypothesis Hdeg : degrees fs D K.
  Hypothesis Hpos : forall f u, f < length fs -> u < arity fs f -> 0 < snd (var_at fs f u).
  Let others (v : msg) f u c := rsum (map (fun u' => v f u' (config_at_slot fs f c u')) (filter (fun u' => negb (u' =? u)) (seq 0 (arity fs f)))).
  Lemma others_moved v f u s c : f < length fs -> c < length (sf_configs (factor_at fs f)) -> u < arity fs f -> s < snd (var_at fs f u) ->
    others v f u (move f u s c) = others v f u c.
  Proof.
    intros Hf Hc Hu Hs. destruct (move_ok f u s c Hf Hc Hu Hs) as [_ M]. apply same_iff in M. unfold others. apply rsum_ext. intros w Hw.
    apply filter_In in Hw. destruct Hw as [Hw Hne]. apply in_seq in Hw. apply negb_true_iff, Nat.eqb_neq in Hne. now rewrite (proj2 M w ltac:(lia) Hne).
  Qed.
  Lemma soft_moved T pots v f u s s' : f < length fs -> u < arity fs f -> s < snd (var_at fs f u) -> s' < snd (var_at fs f u) ->
    fac_to_var_soft fs pots T v f u s' = (T * ln (rsum (map (fun c => exp ((pots f (move f u s' c) + others v f u c) / T)) (choices fs f u s))))%R.
  Proof.
    intros Hf Hu Hs Hs'. unfold fac_to_var_soft. f_equal. f_equal. rewrite <- (rsum_perm _ _ (Permutation_map _ (move_perm f u s s' Hf Hu Hs Hs'))), map_map.
    apply rsum_ext. intros c Hc. apply choice_iff in Hc. unfold score_but. change (rsum (map _ (filter _ _))) with (others v f u (move f u s' c)) at 1.
    now rewrite others_moved.
  Qed.
  (** The entries of a message differ by no more than the potentials. *)
  Lemma fac_to_var_range T pots v w f u s s' : (0 <= T)%R -> pots_within fs pots w -> f < length fs -> u < arity fs f -> s < snd (var_at fs f u) -> s' < snd (var_at fs f u) ->
    (fac_to_var fs pots T v f u s - fac_to_var fs pots T v f u s' <= w)%R.
  Proof.
    intros HT Hp Hf Hu Hs Hs'. unfold fac_to_var. pose proof (all_covered Hpos f u s Hf Hu Hs) as Hc. pose proof (all_covered Hpos f u s' Hf Hu Hs') as Hc'.
    assert (Hm : forall c, In c (choices fs f u s) -> (pots f c + others v f u c <= pots f (move f u s' c) + others v f u c + w)%R).
    { intros c Hi. apply choice_iff in Hi. destruct Hi as [Hi _]. destruct (move_ok f u s' c Hf Hi Hu Hs') as [Hm _]. pose proof (Hp f _ _ Hf Hi Hm). lra. }
    destruct (Req_EM_T T 0) as [E|E].
    - assert (Hi : In (fac_to_var_max fs pots v f u s) (map (fun c => score_but fs pots v f c u) (choices fs f u s))).
      { apply rmaxs_In. destruct (choices fs f u s); [contradiction|discriminate]. }
      apply in_map_iff in Hi. destruct Hi as [c [Ec Hi]]. rewrite <- Ec. specialize (Hm c Hi).
      assert (U : (score_but fs pots v f (move f u s' c) u <= fac_to_var_max fs pots v f u s')%R).
      { apply rmaxs_ub. apply (in_map (fun c => score_but fs pots v f c u)). apply choice_iff in Hi. destruct Hi as [Hi _].
        destruct (move_ok f u s' c Hf Hi Hu Hs') as [M0 M1]. apply same_iff in M1. apply choice_iff. split; [exact M0|apply M1]. }
      apply choice_iff in Hi. destruct Hi as [Hi _]. pose proof (others_moved v f u s' c Hf Hi Hu Hs') as Eo. unfold others in Eo, Hm. unfold score_but in *. lra.
    - rewrite (soft_moved T pots v f u s s' Hf Hu Hs Hs'). unfold fac_to_var_soft.
      change (fun c => exp (score_but fs pots v f c u / T)) with (fun c => exp ((pots f c + others v f u c) / T)).
      assert (P1 : forall h : nat -> R, (0 < rsum (map (fun c => exp (h c)) (choices fs f u s)))%R).
      { intros h. apply rsum_pos; [destruct (choices fs f u s); [contradiction|discriminate]|]. intros y Hy. apply in_map_iff in Hy. destruct Hy as [z [<- _]]. apply exp_pos. }
      assert (L : (rsum (map (fun c => exp ((pots f c + others v f u c) / T)) (choices fs f u s))
        <= exp (w / T) * rsum (map (fun c => exp ((pots f (move f u s' c) + others v f u c) / T)) (choices fs f u s)))%R).
      { rewrite <- rsum_scal. apply rsum_le. intros c Hi. specialize (Hm c Hi). rewrite <- exp_plus. 
        apply exp_le. apply (Rmult_le_reg_r T); [lra|].
        match goal with |- (?x / T * T <= (w / T + ?y / T) * T)%R => replace (x / T * T)%R with x by (field; lra); replace ((w / T + y / T) * T)%R with (w + y)%R by (field; lra) end. lra. }
      apply ln_le_mono in L; [|apply P1]. rewrite ln_mult, ln_exp in L; [|apply exp_pos|apply P1].
      apply (Rmult_le_compat_l T) in L; [|lra]. rewrite Rmult_plus_distr_l in L. replace (T * (w / T))%R with w in L by (field; lra). lra.
  Qed.
  Lemma fac_to_var_mix T pots v v' w x : (0 < T)%R -> (0 <= w)%R -> (0 <= x)%R -> pots_within fs pots w -> msgs_spread fs v v' x ->
    msgs_spread fs (fac_to_var fs pots T v) (fac_to_var fs pots T v') (mixing w T * (INR (K - 1) * x))%R.
  Proof.
    intros HT Hw Hx Hp Hv f u Hf Hu.
    destruct (scores_spread fs D K Hcfg Hdeg pots pots v v' 0%R x f u Hx Hf Hu) as [b Eb]; [intros f' _; apply spread_zero|exact Hv|].
    apply spread_pairs. intros s s' Hs Hs'. unfold fac_to_var. destruct (Req_EM_T T 0) as [E|_]; [lra|].
    rewrite !(soft_moved T pots _ f u s s' Hf Hu Hs Hs'). unfold fac_to_var_soft.
    change (fun c => exp (score_but fs pots v f c u / T)) with (fun c => exp ((pots f c + others v f u c) / T)).
    change (fun c => exp (score_but fs pots v' f c u / T)) with (fun c => exp ((pots f c + others v' f u c) / T)).
    apply (soft_mix T (pots f) (fun c => pots f (move f u s' c)) (others v f u) (others v' f u) (choices fs f u s) w b (INR (K - 1) * x)); auto.
    - now apply all_covered.
    - intros c Hc. apply choice_iff in Hc. destruct Hc as [Hc _]. destruct (move_ok f u s' c Hf Hc Hu Hs') as [Hm _].
      pose proof (Hp f _ _ Hf Hc Hm). pose proof (Hp f _ _ Hf Hm Hc). lra.
    - intros c Hc. apply choice_iff in Hc. destruct Hc as [Hc _]. specialize (Eb c Hc). unfold score_but in Eb. unfold others. lra.
  Qed.
  (** One iteration, with other evidence and potentials on the right. *)
  Lemma step_mix T d pots pots' ev ev' m m' w x e p : (0 < T)%R -> (0 <= d <= 1)%R -> (0 <= w)%R -> (0 <= x)%R -> (0 <= e)%R -> (0 <= p)%R ->
    pots_within fs pots w -> msgs_spread fs m m' x -> ev_spread fs ev ev' e -> pots_spread fs pots pots' p ->
    let y := (d * x + (1 - d) * (p + mixing w T * (INR (K - 1) * (e + INR (D - 1) * x))))%R in
    msgs_spread fs (text_step fs pots T d ev m) (text_step fs pots' T d ev' m') y /\
    msgs_near fs (text_step fs pots T d ev m) (text_step fs pots' T d ev' m') y.
  Proof.
    intros HT Hd Hw Hx He Hp Hpw Sm Se Sp y. unfold text_step. apply normal_spread; [exact Hpos|]. apply damp_spread; [exact Hd|exact Sm|].
    pose proof (pos_INR (D - 1)) as HD. assert (Hy : (0 <= e + INR (D - 1) * x)%R) by (apply Rplus_le_le_0_compat; [exact He|now apply Rmult_le_pos]).
    pose proof (var_to_fac_spread fs D K Hdeg ev ev' m m' e x Hx Se Sm) as Sv.
    pose proof (fac_to_var_mix T pots _ _ w _ HT Hw Hy Hpw Sv) as S1.
    assert (S2 : msgs_spread fs (fac_to_var fs pots T (var_to_fac fs ev' m')) (fac_to_var fs pots' T (var_to_fac fs ev' m')) (p + INR (K - 1) * 0)%R).
    { apply (fac_to_var_spread fs D K Hcfg (all_covered Hpos) Hdeg); [lra|lra|exact Sp|intros f u _ _; apply spread_zero]. }
    intros f u Hf Hu. pose proof (spread_trans _ _ _ _ _ _ (S1 f u Hf Hu) (S2 f u Hf Hu)) as S3. revert S3. apply spread_mono. lra.
  Qed.
End Full.

(** ** Rates *)
Lemma gain_nonneg D K w T : (0 < T)%R -> (0 <= w)%R -> (0 <= gain D K w T)%R.
Proof.
  intros HT Hw. pose proof (mixing_bounds w T HT Hw). unfold gain. apply Rmult_le_pos; [apply Rmult_le_pos|]; try apply pos_INR. lra.
Qed.
Lemma rate_bounds D K d w T : (0 < T)%R -> (0 <= w)%R -> (0 <= d < 1)%R -> (gain D K w T < 1)%R -> (0 <= rate D K d w T < 1)%R.
Proof.
  intros HT Hw Hd Hg. pose proof (gain_nonneg D K w T HT Hw). unfold rate.
  assert (0 <= (1 - d) * gain D K w T < (1 - d) * 1)%R by (split; [apply Rmult_le_pos; lra|apply Rmult_lt_compat_l; lra]). lra.
Qed.
Lemma cycle_gain D K w T : D <= 2 -> K <= 2 -> (0 < T)%R -> (0 <= w)%R -> (gain D K w T < 1)%R.
Proof.
  intros HD HK HT Hw. pose proof (mixing_bounds w T HT Hw) as M. unfold gain.
  assert (X : forall n, n <= 2 -> (0 <= INR (n - 1) <= 1)%R) by (intros n Hn; destruct n as [|[|[|n]]]; cbn; try lra; lia).
  pose proof (X K HK). pose proof (X D HD).
  assert (0 <= mixing w T * INR (K - 1) <= mixing w T * 1)%R by (split; [apply Rmult_le_pos|apply Rmult_le_compat_l]; lra).
  assert (mixing w T * INR (K - 1) * INR (D - 1) <= mixing w T * 1 * 1)%R by (apply Rmult_le_compat; lra). lra.
Qed.
Lemma pow_small rho C eps : (0 <= rho < 1)%R -> (0 < eps)%R -> exists n, forall k, n <= k -> (C * rho ^ k < eps)%R.
Proof.
  intros Hr He. destruct (pow_lt_1_zero rho ltac:(rewrite Rabs_right; lra) (eps / (Rabs C + 1))%R) as [n Hn].
  { apply Rdiv_lt_0_compat; [exact He|]. pose proof (Rabs_pos C). lra. }
  exists n. intros k Hk. specialize (Hn k Hk). pose proof (Rabs_pos C) as HC. pose proof (Rle_abs C) as HC2.
  pose proof (pow_le rho k ltac:(lra)) as Hp. rewrite Rabs_right in Hn by lra.
  apply (Rmult_lt_compat_l (Rabs C + 1)) in Hn; [|lra]. replace ((Rabs C + 1) * (eps / (Rabs C + 1)))%R with eps in Hn by (field; lra).
  assert (C * rho ^ k <= (Rabs C + 1) * rho ^ k)%R by (apply Rmult_le_compat_r; lra). lra.
Qed.
Lemma all_small x C rho : (0 <= rho < 1)%R -> (forall n, (Rabs x <= C * rho ^ n)%R) -> x = 0%R.
Proof.
  intros Hr H. destruct (Req_dec x 0) as [E|E]; [exact E|exfalso]. pose proof (Rabs_pos_lt x E) as Hx.
  destruct (pow_small rho C (Rabs x) Hr Hx) as [n Hn]. specialize (Hn n (le_n n)). specialize (H n). lra.
Qed.
(** A sequence whose later terms stay within [C rho^n] of the [n]-th has a limit. *)
Lemma geometric_limit (x : nat -> R) C rho : (0 <= rho < 1)%R -> (forall n k, (Rabs (x (n + k)%nat - x n) <= C * rho ^ n)%R) ->
  exists l, forall n, (Rabs (x n - l) <= C * rho ^ n)%R.
Proof.
  intros Hr H.
  assert (Hc : Cauchy_crit x).
  { intros eps He. destruct (pow_small rho (2 * C) eps Hr He) as [N HN]. exists N. intros n m Hn Hm. unfold R_dist.
    replace n with (N + (n - N)) by lia. replace m with (N + (m - N)) by lia.
    pose proof (H N (n - N)) as H1. pose proof (H N (m - N)) as H2. specialize (HN N (le_n N)). apply Rabs_between in H1, H2. apply Rabs_def1; lra. }
  destruct (R_complete x Hc) as [l Hl]. exists l. intros n. destruct (Rle_lt_dec (Rabs (x n - l)) (C * rho ^ n)) as [E|E]; [exact E|exfalso].
  destruct (Hl (Rabs (x n - l) - C * rho ^ n)%R ltac:(lra)) as [N HN]. specialize (HN (n + N) ltac:(lia)). specialize (H n N). unfold R_dist in HN.
  assert (Rabs (x n - l) <= Rabs (x (n + N)%nat - x n) + Rabs (x (n + N)%nat - l))%R; [|lra].
  replace (x n - l)%R with (- (x (n + N)%nat - x n) + (x (n + N)%nat - l))%R by lra. eapply Rle_trans; [apply Rabs_triang|]. rewrite Rabs_Ropp. lra.
Qed.
Lemma choose_list {P : nat -> R -> Prop} n : (forall i, i < n -> exists r, P i r) -> exists l, length l = n /\ forall i, i < n -> P i (nth i l 0%R).
Proof.
  induction n as [|n IH]; intros H; [exists []; split; [reflexivity|intros i Hi; lia]|].
  destruct IH as [l [Ll Hl]]; [intros i Hi; apply H; lia|]. destruct (H n (Nat.lt_succ_diag_r n)) as [r Hr]. exists (l ++ [r]). split; [rewrite app_length; cbn; lia|].
  intros i Hi. destruct (Nat.eq_dec i n) as [->|Hne]; [rewrite app_nth2 by lia; rewrite Ll, Nat.sub_diag; exact Hr|]. rewrite app_nth1 by lia. apply Hl. lia.
Qed.

(** ** Textbook runs *)
Section Iterate.
  Context {A : Type} (fs : list (sfactor A)) (D K : nat) (T d w : R) (pots : nat -> nat -> R) (ev : variable -> nat -> R).
  Hypothesis Hcfg : configs_ok fs.
  Hypothesis Hall : all_configs fs.
  Hypothesis Hdeg : degrees fs D K.
  Hypothesis Hpos : forall f u, f < length fs -> u < arity fs f -> 0 < snd (var_at fs f u).
  Hypothesis HT : (0 < T)%R.
  Hypothesis Hw : (0 <= w)%R.
  Hypothesis Hpw : pots_within fs pots w.
  Let rho := rate D K d w T.
  Let step := text_step fs pots T d ev.
  Lemma step_rate m m' x : (0 <= d <= 1)%R -> (0 <= x)%R -> msgs_spread fs m m' x ->
    msgs_spread fs (step m) (step m') (rho * x)%R /\ msgs_near fs (step m) (step m') (rho * x)%R.
  Proof.
    intros Hd Hx Sm. unfold step, rho. replace (rate D K d w T * x)%R with (d * x + (1 - d) * (0 + mixing w T * (INR (K - 1) * (0 + INR (D - 1) * x))))%R by (unfold rate, gain; ring).
    apply (step_mix fs Hcfg Hall D K Hdeg Hpos); auto; try lra; [intros y _; apply spread_zero|intros f _; apply spread_zero].
  Qed.
  Lemma bounded_near m m' : LemRun.bounded fs m -> LemRun.bounded fs m' -> msgs_near fs m m' 2000 /\ msgs_spread fs m m' 2000.
  Proof.
    intros B B'. split.
    - intros f u s Hf Hu Hs. specialize (B f u s Hf Hu Hs). specialize (B' f u s Hf Hu Hs). apply Rabs_le. lra.
    - intros f u Hf Hu. exists (-1000)%R. intros s Hs. specialize (B f u s Hf Hu Hs). specialize (B' f u s Hf Hu Hs). lra.
  Qed.
  Lemma text_bp_bounded m n : LemRun.bounded fs (text_bp fs pots T d ev m n).
  Proof. destruct n; apply normal_bounded. Qed.
  Lemma iter_rate m m' n : (0 <= d < 1)%R -> (gain D K w T < 1)%R -> LemRun.bounded fs m -> LemRun.bounded fs m' ->
    msgs_spread fs (Nat.iter n step m) (Nat.iter n step m') (2000 * rho ^ n)%R /\ msgs_near fs (Nat.iter n step m) (Nat.iter n step m') (2000 * rho ^ n)%R.
  Proof.
    intros Hd Hg B B'. pose proof (rate_bounds D K d w T HT Hw Hd Hg) as Hr. fold rho in Hr. induction n as [|n [IH _]].
    - cbn [pow Nat.iter]. rewrite Rmult_1_r. destruct (bounded_near m m' B B'). auto.
    - change (Nat.iter (S n) step m) with (step (Nat.iter n step m)). change (Nat.iter (S n) step m') with (step (Nat.iter n step m')).
      replace (2000 * rho ^ S n)%R with (rho * (2000 * rho ^ n))%R by (cbn [pow]; ring). apply step_rate; [lra| |exact IH].
      pose proof (pow_le rho n ltac:(lra)). lra.
  Qed.
  Lemma iter_add n k m : Nat.iter (n + k) step m = Nat.iter n step (Nat.iter k step m).
  Proof. induction n as [|n IH]; [reflexivity|]. change (step (Nat.iter (n + k) step m) = step (Nat.iter n step (Nat.iter k step m))). now rewrite IH. Qed.
  Lemma text_bp_later m n k : (0 <= d < 1)%R -> (gain D K w T < 1)%R ->
    msgs_near fs (text_bp fs pots T d ev m (n + k)) (text_bp fs pots T d ev m n) (2000 * rho ^ n)%R.
  Proof.
    intros Hd Hg. unfold text_bp. change (text_step fs pots T d ev) with step. rewrite iter_add. apply iter_rate; auto; [|apply normal_bounded].
    exact (text_bp_bounded m k).
  Qed.
  Lemma near_spread m m' e : msgs_near fs m m' e -> msgs_spread fs m m' (2 * e)%R.
  Proof. intros H f u Hf Hu. apply spread_near. intros s Hs. now apply H. Qed.
  (** A limit of the run is a fixed point. *)
  Lemma limit_fixed m l : (0 <= d < 1)%R -> (gain D K w T < 1)%R ->
    (forall n, msgs_near fs (text_bp fs pots T d ev m n) l (2000 * rho ^ n)%R) -> msg_eq fs (step l) l.
  Proof.
    intros Hd Hg H f u s Hf Hu Hs. pose proof (rate_bounds D K d w T HT Hw Hd Hg) as Hr. fold rho in Hr.
    assert (E : (step l f u s - l f u s = 0)%R); [|lra]. apply (all_small _ 6000 rho Hr). intros n.
    pose proof (pow_le rho n ltac:(lra)) as Hp.
    pose proof (proj2 (step_rate _ _ (2 * (2000 * rho ^ n)) ltac:(lra) ltac:(lra) (near_spread _ _ _ (H n))) f u s Hf Hu Hs) as N1.
    pose proof (H (S n) f u s Hf Hu Hs) as N2. change (text_bp fs pots T d ev m (S n)) with (step (text_bp fs pots T d ev m n)) in N2.
    assert (X : (rho * rho ^ n <= 1 * rho ^ n)%R) by (apply Rmult_le_compat_r; lra). cbn [pow] in N2.
    apply Rabs_between in N1, N2. apply Rabs_le. lra.
  Qed.
  Lemma step_cong m m' : (0 <= d <= 1)%R -> msg_eq fs m m' -> msg_eq fs (step m) (step m').
  Proof.
    intros Hd E. apply near_zero. rewrite <- (Rmult_0_r rho). apply step_rate; [exact Hd|lra|]. intros f u Hf Hu.
    apply (spread_ext _ (m f u) (m f u)); [reflexivity|intros s Hs; now apply E|apply spread_zero].
  Qed.
  Lemma normal_normal m : msg_eq fs (normal fs (normal fs m)) (normal fs m).
  Proof.
    intros f u s Hf Hu Hs. unfold normal at 1.
    assert (E : rmaxs (map (normal fs m f u) (seq 0 (snd (var_at fs f u)))) = 0%R).
    { set (l := map (m f u) (seq 0 (snd (var_at fs f u)))).
      assert (Hi : In (rmaxs l) l) by (apply rmaxs_In; unfold l; destruct (snd (var_at fs f u)); [lia|discriminate]).
      unfold l in Hi at 2. apply in_map_iff in Hi. destruct Hi as [t [Et Ht]]. apply rmaxs_eq.
      - apply in_map_iff. exists t. split; [|exact Ht]. unfold normal. fold l. rewrite <- Et. rewrite Rminus_diag_eq by reflexivity. apply Rmax_right. lra.
      - intros y Hy. apply in_map_iff in Hy. destruct Hy as [t' [<- Ht']]. apply in_seq in Ht'. apply (normal_bounded fs m f u t'); auto. lia. }
    rewrite E. rewrite Rminus_0_r. apply Rmax_right. apply (normal_bounded fs m f u s); auto.
  Qed.
  Lemma normal_cong m m' : msg_eq fs m m' -> msg_eq fs (normal fs m) (normal fs m').
  Proof.
    intros E. apply near_zero. apply normal_spread; [exact Hpos|]. intros f u Hf Hu.
    apply (spread_ext _ (m f u) (m f u)); [reflexivity|intros s Hs; now apply E|apply spread_zero].
  Qed.
  Lemma fixed_run l n : (0 <= d <= 1)%R -> msg_eq fs (step l) l -> msg_eq fs (text_bp fs pots T d ev l n) l.
  Proof.
    intros Hd E. induction n as [|n IH].
    - eapply msg_eq_trans; [apply normal_cong, msg_eq_sym, E|]. eapply msg_eq_trans; [|exact E]. apply normal_normal.
    - eapply msg_eq_trans; [|exact E]. apply (step_cong _ _ Hd IH).
  Qed.
End Iterate.

Lemma index_slot {A} (fs : list (sfactor A)) i : i < total_states fs ->
  exists f u s, f < length fs /\ u < arity fs f /\ s < snd (var_at fs f u) /\ i = slot_index fs f u s.
Proof.
  intros Hi. unfold total_states in Hi.
  assert (I : exists e s, e < length (map snd (sf_edges fs)) /\ s < nth e (map snd (sf_edges fs)) 0 /\ i = off (map snd (sf_edges fs)) e + s).
  { revert i Hi. generalize (map snd (sf_edges fs)). intros l. induction l as [|x l IH]; intros i Hi; [cbn in Hi; lia|].
    change (list_sum (x :: l)) with (x + list_sum l) in Hi. destruct (Nat.lt_ge_cases i x) as [H|H].
    - exists 0, i. cbn [length nth]. rewrite off_0. lia.
    - destruct (IH (i - x)) as [e [s [H1 [H2 H3]]]]; [lia|]. exists (S e), s. cbn [length nth]. rewrite off_cons. lia. }
  destruct I as [e [s [He [Hs E]]]]. rewrite map_length in He.
  assert (Hi2 : In e (map (edge_no fs) (slots fs))) by (rewrite edges_slots; apply in_seq; lia).
  apply in_map_iff in Hi2. destruct Hi2 as [[f u] [<- Hi2]]. apply In_slots in Hi2. cbn [fst snd] in Hi2. destruct Hi2 as [Hf Hu].
  change (edge_no fs (f, u)) with (sf_first_edge fs f + u) in *. rewrite slot_states in Hs by assumption. exists f, u, s. auto.
Qed.

(** ** Runs on a graph *)
Section Decode.
  Context (vgs : list vgroup) (g : fgraph R) (T : R) (c : bp_ctx R).
  Hypothesis Hok : groups_ok vgs.
  Hypothesis Hr : reachable vgs g.
  Hypothesis Hwf : wf_groups (gr_groups g).
  Hypothesis Hbp : bp_of g T c.
  Let fs := graph_factors 0%R (gr_groups g).
  Let evs b := read_ev (gr_vars_to_starts g) (ba_evidence b).
  Let msgs b := read_msgs fs (ba_ftov_msgs b).
  (** Arrays with close beliefs are decoded alike where one state leads. *)
  Lemma decode_close e r q a a' : (0 <= e)%R -> arrays_of c a -> arrays_of c a' ->
    (forall gr n, In gr vgs -> In n (vg_num_states gr) -> 0 < n) -> (forall gr, In gr vgs -> one_state gr = false) ->
    (forall x, In x (all_vars vgs) -> spread (snd x) (text_belief fs (evs a) (msgs a) x) (text_belief fs (evs a') (msgs a') x) e) ->
    get_beliefs c a = Ok r -> decode_map_states r = Ok q ->
    exists r' q', get_beliefs c a' = Ok r' /\ decode_map_states r' = Ok q' /\
    forall gr, In gr vgs -> exists b y y', dget vg_eqb gr r = Some b /\ dget vg_eqb gr q = Some y /\ dget vg_eqb gr q' = Some y' /\
      forall i x s bs, nth_error (vg_variables gr) i = Some x -> s < snd x -> nth_error (row gr b i) s = Some (Fin bs) ->
      (forall t bt, t < snd x -> t <> s -> nth_error (row gr b i) t = Some (Fin bt) -> (bt + e < bs)%R) ->
      cell gr y i = [s] /\ cell gr y' i = [s].
  Proof.
    intros He Ha Ha' Hpos Hone Sb Er Eq.
    destruct (C34_lemma vgs g T c Hok Hr Hwf Hbp _ Ha Hpos Hone) as [r1 [q1 [Er1 [Eq1 [_ Dq]]]]].
    rewrite Er in Er1. injection Er1 as <-. rewrite Eq in Eq1. injection Eq1 as <-.
    destruct (C34_lemma vgs g T c Hok Hr Hwf Hbp _ Ha' Hpos Hone) as [r' [q' [Er' [Eq' [_ Dq']]]]].
    destruct (C33_lemma vgs g T c Hok Hr Hwf Hbp _ Ha Hpos) as [r2 [Er2 [_ Dr]]]. rewrite Er in Er2. injection Er2 as <-.
    exists r', q'. do 2 (split; [assumption|]). intros gr Hg.
    destruct (Dq gr Hg) as [y [Ey [_ Cy]]]. destruct (Dq' gr Hg) as [y' [Ey' [_ Cy']]]. destruct (Dr gr Hg) as [b [Eb [_ Rb]]].
    exists b, y, y'. do 3 (split; [assumption|]). intros i x s bs Hi Hs Es Hgap. rewrite (Rb i x Hi) in Es, Hgap.
    set (bel := text_belief fs (evs a) (msgs a) x).
    assert (Hn : forall t, t < snd x -> nth_error (map (fun t => Fin (bel t)) (seq 0 (snd x)) ++ repeat NInf (state_axis gr i - snd x)) t = Some (Fin (bel t))).
    { intros t Ht. rewrite nth_error_app1 by (rewrite map_length, seq_length; exact Ht). apply (map_nth_error (fun t => Fin (bel t)) t (seq 0 (snd x))).
      rewrite (nth_error_nth' _ 0) by (rewrite seq_length; exact Ht). now rewrite seq_nth. }
    assert (Ebs : bel s = bs). { pose proof (eq_trans (eq_sym (Hn s Hs)) Es) as E. now injection E. }
    assert (Hx : In x (all_vars vgs)).
    { unfold all_vars. apply in_concat. exists (vg_variables gr). split; [now apply in_map|]. eapply nth_error_In. exact Hi. }
    assert (Gap : forall t, t < snd x -> t <> s -> (bel t + e < bel s)%R).
    { intros t Ht Hne. rewrite Ebs. apply (Hgap t (bel t) Ht Hne). exact (Hn t Ht). }
    destruct (Cy i x Hi) as [t [-> Ft]]. destruct (Cy' i x Hi) as [t' [-> Ft']]. split; f_equal.
    - refine (first_best_spread bel bel (snd x) _ s t _ Hs Gap Ft). eapply spread_mono; [exact He|apply spread_zero].
    - refine (first_best_spread bel _ (snd x) _ s t' _ Hs Gap Ft'). now apply Sb.
  Qed.
End Decode.

Section Graph.
  Context (vgs : list vgroup) (g : fgraph R) (T : R) (c : bp_ctx R).
  Hypothesis Hok : groups_ok vgs.
  Hypothesis Hr : reachable vgs g.
  Hypothesis Hwf : wf_groups (gr_groups g).
  Hypothesis Hbp : bp_of g T c.
  Let fs := graph_factors 0%R (gr_groups g).
  Let pots b := graph_pots (gr_groups g) (ba_log_potentials b).
  Let ne := length (enum_factors (gr_groups g)).
  Let lens := map snd (sf_edges fs).
  Let evs b := read_ev (gr_vars_to_starts g) (ba_evidence b).
  Hypothesis Hall : all_configs fs.
  Hypothesis Hsup : supported lens.
  Context (D K : nat) (d w : R).
  Hypothesis Hdeg : degrees fs D K.
  Hypothesis HT : (0 < T)%R.
  Hypothesis Hw : (0 <= w)%R.
  Hypothesis Hd : (0 <= d < 1)%R.
  Hypothesis Hgain : (gain D K w T < 1)%R.
  Let rho := rate D K d w T.
  Lemma conv_rate : (0 <= rho < 1)%R. Proof. now apply rate_bounds. Qed.
  Lemma conv_cfg : configs_ok fs. Proof. now apply graph_configs_ok. Qed.
  Lemma conv_pos f u : f < length fs -> u < arity fs f -> 0 < snd (var_at fs f u). Proof. now apply positive_states. Qed.

  (** One set of inputs. *)
  Section Inputs.
    Context (a : bp_arrays R) (B P : R) (D1 K1 : nat).
    Hypothesis Ha : arrays_of c a.
    Hypothesis M : moderate fs (pots a) ne (evs a) B P D1 K1.
    Let start m := length m = length (ba_ftov_msgs a) /\ above_floor lens m.
    Let run m n := ba_ftov_msgs (run_bp c (with_msgs a m) n d).
    Lemma with_arrays m : length m = length (ba_ftov_msgs a) -> arrays_of c (with_msgs a m).
    Proof. intros E. destruct Ha as [A1 [A2 A3]]. split; [exact A1|]. split; [cbn; congruence|exact A3]. Qed.
    Lemma conv_total : length (ba_ftov_msgs a) = total_states fs.
    Proof. now destruct (arrays_lengths vgs g T c Hok Hr Hwf Hbp a Ha) as [_ [L _]]. Qed.
    Lemma run_total m n : length m = length (ba_ftov_msgs a) -> length (run m n) = total_states fs.
    Proof. intros E. apply (run_length vgs g T c Hok Hr Hwf Hbp _ (with_arrays m E)). Qed.
    Lemma run_text m n : start m -> msg_eq fs (read_msgs fs (run m n)) (text_bp fs (pots a) T d (evs a) (read_msgs fs m) n).
    Proof.
      intros [E F]. apply (C39_lemma vgs g T c Hok Hr Hwf Hbp (with_msgs a m) (with_arrays m E) d n Hsup).
      - intros i Hi. apply (above_floor_run vgs g T c Hok Hr Hwf Hbp (with_msgs a m) (with_arrays m E) B P D1 K1 M ltac:(lra) Hsup F d ltac:(lra) n i Hi).
      - intros i Hi. apply (in_range_text g T Hwf (with_msgs a m) B P D1 K1 M).
    Qed.
    Lemma near_entries (x y : list R) e : length x = total_states fs -> length y = total_states fs -> (0 <= e)%R ->
      msgs_near fs (read_msgs fs x) (read_msgs fs y) e -> forall i, (Rabs (nth i x 0 - nth i y 0) <= e)%R.
    Proof.
      intros Lx Ly He H i. destruct (Nat.lt_ge_cases i (total_states fs)) as [Hi|Hi].
      - destruct (index_slot fs i Hi) as [f [u [s [Hf [Hu [Hs ->]]]]]]. exact (H f u s Hf Hu Hs).
      - rewrite !nth_overflow by lia. rewrite Rminus_0_r, Rabs_R0. exact He.
    Qed.
    Lemma near_eq m m' x y e : msg_eq fs m x -> msg_eq fs m' y -> msgs_near fs m m' e -> msgs_near fs x y e.
    Proof. intros E E' H f u s Hf Hu Hs. rewrite <- (E f u s Hf Hu Hs), <- (E' f u s Hf Hu Hs). now apply H. Qed.
    Lemma spread_eq m m' x y e : msg_eq fs m x -> msg_eq fs m' y -> msgs_spread fs m m' e -> msgs_spread fs x y e.
    Proof. intros E E' H f u Hf Hu. specialize (H f u Hf Hu). revert H. apply spread_ext; intros s Hs; [now apply E|now apply E']. Qed.
    Lemma run_near m m' n : pots_within fs (pots a) w -> start m -> start m' ->
      msgs_spread fs (read_msgs fs (run m n)) (read_msgs fs (run m' n)) (2000 * rho ^ n)%R /\
      msgs_near fs (read_msgs fs (run m n)) (read_msgs fs (run m' n)) (2000 * rho ^ n)%R.
    Proof.
      intros Hpw Hm Hm'.
      destruct (iter_rate fs D K T d w (pots a) (evs a) conv_cfg Hall Hdeg conv_pos HT Hw Hpw (normal fs (read_msgs fs m)) (normal fs (read_msgs fs m')) n Hd Hgain (normal_bounded _ _) (normal_bounded _ _)) as [I1 I2].
      split; [revert I1; apply spread_eq|revert I2; apply near_eq]; apply msg_eq_sym; now apply run_text.
    Qed.
    Lemma pow_pos n : (0 <= 2000 * rho ^ n)%R.
    Proof. pose proof conv_rate. pose proof (pow_le rho n ltac:(lra)). lra. Qed.
    Lemma C56_approach_lemma m m' : pots_within fs (pots a) w -> start m -> start m' ->
      forall n i, (Rabs (nth i (run m n) 0 - nth i (run m' n) 0) <= 2000 * rho ^ n)%R.
    Proof.
      intros Hpw Hm Hm' n. apply near_entries; [apply run_total, Hm|apply run_total, Hm'|apply pow_pos|]. now apply run_near.
    Qed.
    (** A normalised array is a legal start. *)
    Lemma normal_start m : length m = length (ba_ftov_msgs a) -> normal_msgs fs (read_msgs fs m) -> start m.
    Proof.
      intros L N. split; [exact L|]. apply (above_floor_slots g Hsup); [rewrite L; apply conv_total|].
      intros f u Hf Hu. destruct (N f u Hf Hu) as [[s [Hs E]] _]. exists s. split; [exact Hs|]. fold fs. rewrite E. unfold neg_inf. lra.
    Qed.
    Lemma run_with m n : with_msgs a (run m n) = run_bp c (with_msgs a m) n d.
    Proof. reflexivity. Qed.
    Lemma run_later m n k : start m -> run (run m n) k = run m (n + k).
    Proof.
      intros [L F]. unfold run at 1. rewrite run_with.
      now rewrite (C31_bounded_lemma vgs g T c (with_msgs a m) B P D1 K1 d Hok Hr Hwf Hbp (with_arrays m L) M ltac:(lra) ltac:(lra) Hsup F n k).
    Qed.
    Lemma run_start m n : start m -> start (run m n).
    Proof.
      intros [L F]. apply normal_start; [rewrite run_total by exact L; symmetry; apply conv_total|].
      exact (C29_bounded_lemma vgs g T c (with_msgs a m) B P D1 K1 d Hok Hr Hwf Hbp (with_arrays m L) M ltac:(lra) ltac:(lra) Hsup F n).
    Qed.
    Lemma zero_start : start (map (fun _ => 0%R) (ba_ftov_msgs a)).
    Proof.
      apply normal_start; [now rewrite map_length|]. intros f u Hf Hu.
      assert (Z : forall s, read_msgs fs (map (fun _ => 0%R) (ba_ftov_msgs a)) f u s = 0%R).
      { intros s. unfold read_msgs. generalize (slot_index fs f u s). induction (ba_ftov_msgs a) as [|y l IH]; intros [|k]; cbn; auto. }
      split; [exists 0; split; [now apply conv_pos|apply Z]|]. intros s _. rewrite Z. lra.
    Qed.
    Lemma periodic m n j : start m -> run m n = m -> run m (j * n) = run m 0 /\ run m 0 = m.
    Proof.
      intros Hm E. assert (E0 : run m 0 = m) by (rewrite <- E at 1; rewrite run_later by exact Hm; rewrite Nat.add_0_r; exact E).
      split; [|exact E0]. induction j as [|j IH]; [reflexivity|]. change (S j * n) with (n + j * n). rewrite <- run_later by exact Hm. now rewrite E.
    Qed.
    Lemma C56_converges_lemma : pots_within fs (pots a) w ->
      exists l, start l /\ (forall n, run l n = l) /\
        (forall m, start m -> forall n i, (Rabs (nth i (run m n) 0 - nth i l 0) <= 2000 * rho ^ n)%R) /\
        (forall m n, start m -> 0 < n -> run m n = m -> m = l).
    Proof.
      intros Hpw. set (m0 := map (fun _ => 0%R) (ba_ftov_msgs a)). pose proof zero_start as H0. fold m0 in H0.
      pose proof conv_rate as Hrho. pose proof conv_total as Ltot.
      destruct (@choose_list (fun i r => forall n, (Rabs (nth i (run m0 n) 0 - r) <= 2000 * rho ^ n)%R) (total_states fs)) as [l [Ll Hl]].
      { intros i Hi. apply geometric_limit; [exact Hrho|]. intros n k.
        destruct (index_slot fs i Hi) as [f [u [s [Hf [Hu [Hs ->]]]]]].
        pose proof (text_bp_later fs D K T d w (pots a) (evs a) conv_cfg Hall Hdeg conv_pos HT Hw Hpw (read_msgs fs m0) n k Hd Hgain f u s Hf Hu Hs) as N.
        rewrite <- !(run_text m0 _ H0 f u s Hf Hu Hs) in N. exact N. }
      assert (Ln : forall n, msgs_near fs (text_bp fs (pots a) T d (evs a) (read_msgs fs m0) n) (read_msgs fs l) (2000 * rho ^ n)%R).
      { intros n f u s Hf Hu Hs. rewrite <- (run_text m0 n H0 f u s Hf Hu Hs). apply (Hl (slot_index fs f u s)). now apply slot_index_lt. }
      pose proof (limit_fixed fs D K T d w (pots a) (evs a) conv_cfg Hall Hdeg conv_pos HT Hw Hpw (read_msgs fs m0) (read_msgs fs l) Hd Hgain Ln) as Fx.
      assert (Nl : normal_msgs fs (read_msgs fs l)).
      { (* the step ends with a normalisation *)
        intros f u Hf Hu. set (z := damp d (read_msgs fs l) (fac_to_var fs (pots a) T (var_to_fac fs (evs a) (read_msgs fs l)))).
        change (text_step fs (pots a) T d (evs a) (read_msgs fs l)) with (normal fs z) in Fx.
        split.
        - set (k := map (z f u) (seq 0 (snd (var_at fs f u)))). pose proof (conv_pos f u Hf Hu) as Hp.
          assert (Hi : In (rmaxs k) k) by (apply rmaxs_In; unfold k; destruct (snd (var_at fs f u)); [lia|discriminate]).
          unfold k in Hi at 2. apply in_map_iff in Hi. destruct Hi as [s [Es Hs]]. apply in_seq in Hs. exists s. split; [lia|].
          rewrite <- (Fx f u s Hf Hu ltac:(lia)). unfold normal. fold k. rewrite <- Es. rewrite Rminus_diag_eq by reflexivity. apply Rmax_right. lra.
        - intros s Hs. rewrite <- (Fx f u s Hf Hu Hs). now apply (normal_bounded fs z f u s). }
      assert (Hst : start l) by (apply normal_start; [congruence|exact Nl]).
      assert (Fix_ : forall n, run l n = l).
      { intros n. apply (read_ext fs); [apply run_total, Hst|exact Ll|]. eapply msg_eq_trans; [apply run_text, Hst|].
        apply (fixed_run fs D K T d w (pots a) (evs a) conv_cfg Hall Hdeg conv_pos HT Hw Hpw); [lra|exact Fx]. }
      assert (App : forall m, start m -> forall n i, (Rabs (nth i (run m n) 0 - nth i l 0) <= 2000 * rho ^ n)%R).
      { intros m Hm n i. rewrite <- (Fix_ n). now apply C56_approach_lemma. }
      exists l. do 3 (split; [assumption|]). intros m n Hm Hn E. apply (nth_ext _ _ 0%R 0%R); [destruct Hm; congruence|]. intros i _.
      destruct (Req_dec (nth i m 0%R) (nth i l 0%R)) as [Q|Q]; [exact Q|exfalso]. apply Q.
      assert (Z : (nth i m 0 - nth i l 0 = 0)%R); [|lra]. apply (all_small _ 2000 rho Hrho). intros j.
      destruct (periodic m n j Hm E) as [E1 E2]. rewrite E2 in E1. pose proof (App m Hm (j * n) i) as N. rewrite E1 in N. eapply Rle_trans; [exact N|].
      apply Rmult_le_compat_l; [lra|]. clear - Hrho Hn. assert (X : forall k, (rho ^ (j + k) <= rho ^ j)%R).
      { intros k. rewrite pow_add. rewrite <- (Rmult_1_r (rho ^ j)) at 2. apply Rmult_le_compat_l; [apply pow_le; lra|].
        induction k as [|k IH]; cbn [pow]; [lra|]. assert (rho * rho ^ k <= 1 * 1)%R by (apply Rmult_le_compat; try lra; apply pow_le; lra). lra. }
      replace (j * n) with (j + (j * n - j)) by (destruct n; [lia|]; rewrite Nat.mul_succ_r; lia). apply X.
    Qed.
    Lemma C56_decode_lemma l : pots_within fs (pots a) w -> start l -> run l 1 = l ->
      (forall gr n, In gr vgs -> In n (vg_num_states gr) -> 0 < n) -> (forall gr, In gr vgs -> one_state gr = false) ->
      exists r q, get_beliefs c (with_msgs a l) = Ok r /\ decode_map_states r = Ok q /\
      forall m n, start m -> exists r' q', get_beliefs c (run_bp c (with_msgs a m) n d) = Ok r' /\ decode_map_states r' = Ok q' /\
      forall gr, In gr vgs -> exists b y y', dget vg_eqb gr r = Some b /\ dget vg_eqb gr q = Some y /\ dget vg_eqb gr q' = Some y' /\
        forall i x s bs, nth_error (vg_variables gr) i = Some x -> s < snd x -> nth_error (row gr b i) s = Some (Fin bs) ->
        (forall t bt, t < snd x -> t <> s -> nth_error (row gr b i) t = Some (Fin bt) -> (bt + INR D * (2000 * rho ^ n) < bs)%R) ->
        cell gr y i = [s] /\ cell gr y' i = [s].
    Proof.
      intros Hpw Hl Fl Hpos Hone.
      destruct (C34_lemma vgs g T c Hok Hr Hwf Hbp _ (with_arrays l (proj1 Hl)) Hpos Hone) as [r [q [Er [Eq _]]]].
      exists r, q. do 2 (split; [assumption|]). intros m n Hm.
      apply (decode_close vgs g T c Hok Hr Hwf Hbp (INR D * (2000 * rho ^ n)) r q (with_msgs a l) (run_bp c (with_msgs a m) n d)); auto.
      - apply Rmult_le_pos; [apply pos_INR|apply pow_pos].
      - apply with_arrays, Hl.
      - rewrite <- run_with. apply with_arrays, run_start, Hm.
      - intros x Hx. rewrite <- run_with. unfold text_belief. cbn [ba_evidence with_msgs ba_ftov_msgs].
        replace (INR D * (2000 * rho ^ n))%R with (0 + INR D * (2000 * rho ^ n))%R by lra.
        apply (spread_plus _ (evs a x) (evs a x)); [apply spread_zero|].
        apply (spread_sum _ (fun fu => read_msgs fs l (fst fu) (snd fu)) (fun fu => read_msgs fs (run m n) (fst fu) (snd fu))); [apply pow_pos|apply (proj1 Hdeg)|].
        intros [f u] Hi. apply In_slots_of in Hi. destruct Hi as [H1 [H2 H3]]. cbn [fst snd]. rewrite <- H3.
        destruct (periodic l 1 n Hl Fl) as [E1 E2]. rewrite Nat.mul_1_r, E2 in E1. rewrite <- E1. now apply run_near.
    Qed.
  End Inputs.

  (** Fixed points for different inputs. *)
  Lemma C56_inputs_lemma a a' B P D1 K1 B' P' D2 K2 e p l l' :
    arrays_of c a -> arrays_of c a' -> moderate fs (pots a) ne (evs a) B P D1 K1 -> moderate fs (pots a') ne (evs a') B' P' D2 K2 ->
    pots_within fs (pots a) w -> (0 <= e)%R -> (0 <= p)%R -> ev_spread fs (evs a) (evs a') e -> pots_spread fs (pots a) (pots a') p ->
    length l = length (ba_ftov_msgs a) -> above_floor lens l -> ba_ftov_msgs (run_bp c (with_msgs a l) 1 d) = l ->
    length l' = length (ba_ftov_msgs a') -> above_floor lens l' -> ba_ftov_msgs (run_bp c (with_msgs a' l') 1 d) = l' ->
    forall i, (Rabs (nth i l 0 - nth i l' 0) <= (p + mixing w T * INR (K - 1) * e) / (1 - gain D K w T))%R.
  Proof.
    intros Ha Ha' M M' Hpw He Hp Se Sp Ll Fl El Ll' Fl' El'. pose proof conv_rate as Hrho. pose proof (mixing_bounds w T HT Hw) as Hmix.
    set (q := (p + mixing w T * INR (K - 1) * e)%R). set (x0 := (q / (1 - gain D K w T))%R).
    assert (Hq : (0 <= q)%R) by (unfold q; apply Rplus_le_le_0_compat; [exact Hp|]; apply Rmult_le_pos; [apply Rmult_le_pos; [lra|apply pos_INR]|exact He]).
    assert (Hx0 : (0 <= x0)%R) by (apply Rmult_le_pos; [exact Hq|left; apply Rinv_0_lt_compat; lra]).
    assert (Ex0 : (rho * x0 + (1 - d) * q = x0)%R) by (unfold rho, rate, x0; field; lra).
    pose proof (conv_total a Ha) as Lt. pose proof (conv_total a' Ha') as Lt'.
    assert (F1 : forall n, msg_eq fs (text_bp fs (pots a) T d (evs a) (read_msgs fs l) n) (read_msgs fs l)).
    { intros n. destruct (periodic a B P D1 K1 Ha M l 1 n (conj Ll Fl) El) as [E1 E2]. rewrite Nat.mul_1_r in E1.
      apply msg_eq_sym. pose proof (run_text a B P D1 K1 Ha M l n (conj Ll Fl)) as Q. cbv beta zeta in E1, E2, Q. rewrite E1, E2 in Q. exact Q. }
    assert (F2 : forall n, msg_eq fs (text_bp fs (pots a') T d (evs a') (read_msgs fs l') n) (read_msgs fs l')).
    { intros n. destruct (periodic a' B' P' D2 K2 Ha' M' l' 1 n (conj Ll' Fl') El') as [E1 E2]. rewrite Nat.mul_1_r in E1.
      apply msg_eq_sym. pose proof (run_text a' B' P' D2 K2 Ha' M' l' n (conj Ll' Fl')) as Q. cbv beta zeta in E1, E2, Q. rewrite E1, E2 in Q. exact Q. }
    apply near_entries; [congruence|congruence|exact Hx0|].
    assert (S : forall n, msgs_spread fs (text_bp fs (pots a) T d (evs a) (read_msgs fs l) n) (text_bp fs (pots a') T d (evs a') (read_msgs fs l') n) (x0 + 2000 * rho ^ n)%R /\
       msgs_near fs (text_bp fs (pots a) T d (evs a) (read_msgs fs l) n) (text_bp fs (pots a') T d (evs a') (read_msgs fs l') n) (x0 + 2000 * rho ^ n)%R).
    { induction n as [|n [IH _]].
      - destruct (bounded_near fs _ _ (text_bp_bounded fs T d (pots a) (evs a) (read_msgs fs l) 0) (text_bp_bounded fs T d (pots a') (evs a') (read_msgs fs l') 0)) as [N0 S0].
        cbn [pow]. split.
        + intros f u Hf Hu. eapply spread_mono; [|exact (S0 f u Hf Hu)]. lra.
        + intros f u s Hf Hu Hs. eapply Rle_trans; [exact (N0 f u s Hf Hu Hs)|]. lra.
      - pose proof (pow_pos n) as Hpn.
        pose proof (step_mix fs conv_cfg Hall D K Hdeg conv_pos T d (pots a) (pots a') (evs a) (evs a') _ _ w (x0 + 2000 * rho ^ n) e p HT ltac:(lra) Hw ltac:(lra) He Hp Hpw IH Se Sp) as SM.
        cbv zeta in SM.
        replace (d * (x0 + 2000 * rho ^ n) + (1 - d) * (p + mixing w T * (INR (K - 1) * (e + INR (D - 1) * (x0 + 2000 * rho ^ n)))))%R
          with (rho * x0 + (1 - d) * q + 2000 * (rho * rho ^ n))%R in SM by (unfold rho, rate, gain, q; ring).
        rewrite Ex0 in SM. exact SM. }
    intros f u s Hf Hu Hs. destruct (Rle_lt_dec (Rabs (read_msgs fs l f u s - read_msgs fs l' f u s)) x0) as [E|E]; [exact E|exfalso].
    destruct (pow_small rho 2000 (Rabs (read_msgs fs l f u s - read_msgs fs l' f u s) - x0) Hrho ltac:(lra)) as [n Hn]. specialize (Hn n (le_n n)).
    pose proof (proj2 (S n) f u s Hf Hu Hs) as N. rewrite (F1 n f u s Hf Hu Hs), (F2 n f u s Hf Hu Hs) in N. lra.
  Qed.
End Graph.

(** ** Pairwise groups *)
Lemma grid_rows n m : NoDup (config_rows (pair_grid n m)) /\
  forall i j, i < n -> j < m -> In [Z.of_nat i; Z.of_nat j] (config_rows (pair_grid n m)).
Proof.
  destruct (pair_grid_spec n m) as [_ [_ [G1 G2]]].
  change (config_rows (pair_grid n m)) with (map (fun r => [config_at (pair_grid n m) 2 r 0; config_at (pair_grid n m) 2 r 1]) (seq 0 (n * m))). split.
  - apply NoDup_map_inj; [apply seq_NoDup|]. intros r r' Hi Hi' E. apply in_seq in Hi, Hi'.
    destruct (G2 r ltac:(lia)) as [i [j [Hi1 [Hj1 [-> _]]]]]. destruct (G2 r' ltac:(lia)) as [i' [j' [Hi2 [Hj2 [-> _]]]]].
    destruct (G1 i j Hi1 Hj1) as [E1 E2]. destruct (G1 i' j' Hi2 Hj2) as [E3 E4]. rewrite E1, E2, E3, E4 in E. injection E as E5 E6. apply Nat2Z.inj in E5, E6. now subst.
  - intros i j Hi Hj. apply in_map_iff. exists (i * m + j). destruct (G1 i j Hi Hj) as [-> ->]. split; [reflexivity|]. apply in_seq. nia.
Qed.
Lemma C56_pairwise_lemma (G : per_type (list (fgroup R))) : pt_or G = [] -> pt_and G = [] ->
  (forall gr, In gr (pt_enum G) -> exists junk id vars mat, (match mat with Some (_, p) => wf_arr p | None => True end) /\
     PairwiseFactorGroup junk id vars mat = Ok gr) ->
  let fs := graph_factors 0%R G in all_configs fs /\ forall f, f < length fs -> arity fs f = 2.
Proof.
  intros Ho Hand Hg fs.
  assert (F : forall f, f < length fs -> exists n m x y, snd x = n /\ snd y = m /\ sf_vars (factor_at fs f) = [x; y] /\ sf_configs (factor_at fs f) = config_rows (pair_grid n m)).
  { intros f Hf. assert (I : In (factor_at fs f) fs) by now apply nth_In. revert I. generalize (factor_at fs f). intros F I. unfold fs, graph_factors in I.
    unfold logical_factors in I. cbn [pt_get] in I. rewrite Ho, Hand in I. cbn in I. rewrite app_nil_r in I. unfold enum_factors in I. apply in_flat_map in I. destruct I as [gr [Hgr I]].
    destruct (Hg gr Hgr) as [junk [id [vars [mat [Hw E]]]]]. destruct (PairwiseFactorGroup_spec junk id vars mat Hw) as [S _].
    destruct (S gr E) as [n [m [_ [Pv [_ [_ [_ [Ev [Ec _]]]]]]]]]. unfold group_factors in I. apply in_map_iff in I. destruct I as [[k vs] [<- Iv]]. cbn [sf_vars sf_configs fst snd].
    apply in_combine_r in Iv. rewrite Ev in Iv. destruct (Pv vs Iv) as [x [y [-> [Hx Hy]]]]. exists n, m, x, y. rewrite Ec. auto. }
  split.
  - intros f Hf. destruct (F f Hf) as [n [m [x [y [Hx [Hy [Ev Ec]]]]]]]. destruct (grid_rows n m) as [N1 N2]. rewrite Ec. split; [exact N1|].
    unfold arity, var_at. rewrite Ev. cbn [length]. intros cfg Hl Hc. destruct cfg as [|i [|j [|]]]; try discriminate Hl.
    pose proof (Hc 0 ltac:(lia)) as C0. pose proof (Hc 1 ltac:(lia)) as C1. cbn [nth] in C0, C1.
    rewrite <- (Z2Nat.id i), <- (Z2Nat.id j) by lia. apply N2; lia.
  - intros f Hf. destruct (F f Hf) as [n [m [x [y [_ [_ [Ev _]]]]]]]. unfold arity. now rewrite Ev.
Qed.
Lemma C56_rate_lemma D K d w T : (0 < T)%R -> (0 <= w)%R -> (0 <= d < 1)%R -> (gain D K w T < 1)%R ->
  (0 <= rate D K d w T < 1)%R /\
  forall eps, (0 < eps)%R -> exists N, forall n, N <= n -> (2000 * rate D K d w T ^ n < eps)%R.
Proof.
  intros HT Hw Hd Hg. pose proof (rate_bounds D K d w T HT Hw Hd Hg) as R. split; [exact R|]. intros eps He. now apply pow_small.
Qed.
Lemma C56_hot_lemma D K w T : (0 < T)%R -> (0 <= w)%R -> (2 * w * INR (K - 1) * INR (D - 1) < T)%R -> (gain D K w T < 1)%R.
Proof.
  intros HT Hw H. assert (E : (mixing w T <= 2 * w / T)%R).
  { unfold mixing. destruct (Req_dec (2 * w / T) 0) as [E|E]; [rewrite E, Ropp_0, exp_0; lra|].
    pose proof (exp_ineq1 (- (2 * w / T)) ltac:(lra)). lra. }
  unfold gain. pose proof (pos_INR (K - 1)) as P1. pose proof (pos_INR (D - 1)) as P2.
  apply Rle_lt_trans with (2 * w / T * INR (K - 1) * INR (D - 1))%R.
  - apply Rmult_le_compat_r; [exact P2|]. now apply Rmult_le_compat_r.
  - replace (2 * w / T * INR (K - 1) * INR (D - 1))%R with (2 * w * INR (K - 1) * INR (D - 1) / T)%R by (field; lra).
    apply Rmult_lt_reg_r with T; [exact HT|]. unfold Rdiv. rewrite Rmult_assoc, Rinv_l by lra. lra.
Qed.
