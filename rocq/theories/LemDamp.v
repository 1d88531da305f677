(** * Damped belief propagation on acyclic graphs (C58). *)
From Verif Require Import NumPy Lists VGroup FGraph BPState BP SpecVGroup SpecFGraph SpecFactor SpecWiring SpecState SpecBP SpecText SpecTree SpecStable SpecBeliefs SpecConv SpecSum SpecFix SpecDamp.
From Verif Require Import LemFGraph LemNum LemTemp LemIter LemNorm LemVtoF LemText LemRun LemShift LemPerm LemTree LemStable LemConv LemFix LemBeliefs LemSpread LemExact LemSum.
From Coq Require Import Reals Lra Lia.
Local Open Scope nat_scope.
Local Notation spread := SpecStable.spread.

Lemma cost_pos D K : (1 <= reach_cost D K)%R /\ (INR (K - 1) * INR (D - 1) <= reach_cost D K)%R.
Proof. split; [apply Rmax_l|apply Rmax_r]. Qed.

(** ** Textbook *)
Section Text.
  Context {A : Type} (fs : list (sfactor A)) (D K : nat).
  Hypothesis Hcfg : configs_ok fs.
  Hypothesis Hcov : covered fs.
  Hypothesis Hdeg : degrees fs D K.
  Hypothesis Hpos : forall f u, f < length fs -> u < arity fs f -> 0 < snd (var_at fs f u).
  Context (T : R) (pots : nat -> nat -> R) (ev : variable -> nat -> R).
  Hypothesis HT : (0 <= T)%R.

  Definition sp (m m' : msg) (q : nat * nat) (e : R) : Prop := spread (snd (var_at fs (fst q) (snd q))) (m (fst q) (snd q)) (m' (fst q) (snd q)) e.
  (** [m'] at one slot, [m] elsewhere. *)
  Definition patch (p : nat -> nat -> bool) (m m' : msg) : msg := fun f u s => if p f u then m' f u s else m f u s.

  Lemma fac_local v v' f u x : (0 <= x)%R -> f < length fs -> u < arity fs f ->
    (forall u', u' < arity fs f -> u' <> u -> sp v v' (f, u') x) ->
    sp (fac_to_var fs pots T v) (fac_to_var fs pots T v') (f, u) (INR (K - 1) * x)%R.
  Proof.
    intros Hx Hf Hu Hv. set (w := patch (fun g y => (g =? f) && negb (y =? u)) v v').
    assert (E2 : forall c, score_but fs pots v' f c u = score_but fs pots w f c u).
    { intros c. unfold score_but. f_equal. apply rsum_ext. intros y Hy. apply filter_In in Hy. destruct Hy as [_ Hy].
      unfold w, patch. rewrite Nat.eqb_refl, Hy. reflexivity. }
    assert (E : forall s, fac_to_var fs pots T w f u s = fac_to_var fs pots T v' f u s).
    { intros s. unfold fac_to_var. destruct (Req_EM_T T 0); unfold fac_to_var_max, fac_to_var_soft.
      - f_equal. apply map_ext. intros c. now rewrite E2.
      - f_equal. f_equal. apply rsum_ext. intros c _. now rewrite E2. }
    assert (Sw : msgs_spread fs v w x).
    { intros g y Hg Hy. unfold w. destruct ((g =? f) && negb (y =? u)) eqn:Eb.
      - apply Bool.andb_true_iff in Eb. destruct Eb as [E1 Eu]. apply Nat.eqb_eq in E1. subst g. apply Bool.negb_true_iff, Nat.eqb_neq in Eu.
        eapply spread_ext; [reflexivity| |exact (Hv y Hy Eu)]. intros s _. cbn [fst snd]. unfold patch. rewrite Nat.eqb_refl. apply Nat.eqb_neq in Eu. now rewrite Eu.
      - eapply spread_ext; [reflexivity| |eapply spread_mono; [exact Hx|apply spread_zero]]. intros s _. unfold patch. now rewrite Eb. }
    unfold sp. cbn [fst snd]. eapply spread_ext; [reflexivity|intros s _; exact (E s)|]. rewrite <- (Rplus_0_l (INR (K - 1) * x)).
    apply (fac_to_var_spread fs D K Hcfg Hcov Hdeg T pots pots v w 0 x HT Hx); [intros g _; apply spread_zero|exact Sw|exact Hf|exact Hu].
  Qed.
  Lemma var_local m m' f u x : (0 <= x)%R -> f < length fs -> u < arity fs f ->
    (forall q, slot_ok fs (seq 0 (length fs)) q -> svar fs q = var_at fs f u -> q <> (f, u) -> sp m m' q x) ->
    sp (var_to_fac fs ev m) (var_to_fac fs ev m') (f, u) (INR (D - 1) * x)%R.
  Proof.
    intros Hx Hf Hu Hm. unfold sp. cbn [fst snd]. unfold var_to_fac. rewrite <- (Rplus_0_l (INR (D - 1) * x)).
    apply (spread_plus _ (ev (var_at fs f u)) (ev (var_at fs f u))); [apply spread_zero|].
    apply (spread_sum _ (fun fu => m (fst fu) (snd fu)) (fun fu => m' (fst fu) (snd fu))); [exact Hx| |].
    - apply (others_length fs D K Hdeg). apply In_slots_of. auto.
    - intros [f' u'] Hi. apply filter_In in Hi. destruct Hi as [Hi Hne]. apply In_slots_of in Hi. destruct Hi as [H1 [H2 H3]].
      assert (S : sp m m' (f', u') x).
      { apply Hm; [split; [apply in_seq; cbn; lia|exact H2]|exact H3|]. intros F. rewrite (proj2 (slot_eqb_eq _ _) F) in Hne. discriminate. }
      unfold sp in S. cbn [fst snd] in *. rewrite H3 in S. exact S.
  Qed.
  Lemma normal_local m m' f u x : (0 <= x)%R -> f < length fs -> u < arity fs f -> sp m m' (f, u) x ->
    sp (normal fs m) (normal fs m') (f, u) x /\ forall s, s < snd (var_at fs f u) -> (Rabs (normal fs m f u s - normal fs m' f u s) <= x)%R.
  Proof.
    intros Hx Hf Hu Hm. set (w := patch (fun g y => (g =? f) && (y =? u)) m m').
    assert (Ew : forall s, w f u s = m' f u s) by (intros s; unfold w, patch; now rewrite !Nat.eqb_refl).
    assert (En : forall s, normal fs w f u s = normal fs m' f u s) by (intros s; unfold normal; now rewrite Ew, (map_ext _ _ Ew)).
    assert (Sw : msgs_spread fs m w x).
    { intros g y Hg Hy. unfold w. destruct ((g =? f) && (y =? u)) eqn:Eb.
      - apply Bool.andb_true_iff in Eb. destruct Eb as [E1 E2]. apply Nat.eqb_eq in E1, E2. subst g y.
        eapply spread_ext; [reflexivity| |exact Hm]. intros s _. cbn [fst snd]. unfold patch. now rewrite !Nat.eqb_refl.
      - eapply spread_ext; [reflexivity| |eapply spread_mono; [exact Hx|apply spread_zero]]. intros s _. unfold patch. now rewrite Eb. }
    destruct (normal_spread fs m w x Hpos Sw) as [N1 N2]. split.
    - unfold sp. cbn [fst snd]. eapply spread_ext; [reflexivity|intros s _; exact (En s)|]. exact (N1 f u Hf Hu).
    - intros s Hs. rewrite <- En. exact (N2 f u s Hf Hu Hs).
  Qed.
  (** One iteration, seen from one slot. *)
  Lemma step_local d m m' f u x y : (0 <= d <= 1)%R -> (0 <= x)%R -> (0 <= y)%R -> f < length fs -> u < arity fs f ->
    sp m m' (f, u) y ->
    (forall u' q, u' < arity fs f -> u' <> u -> slot_ok fs (seq 0 (length fs)) q -> svar fs q = var_at fs f u' -> q <> (f, u') -> sp m m' q x) ->
    let z := (d * y + (1 - d) * (INR (K - 1) * (INR (D - 1) * x)))%R in
    sp (text_step fs pots T d ev m) (text_step fs pots T d ev m') (f, u) z /\
    forall s, s < snd (var_at fs f u) -> (Rabs (text_step fs pots T d ev m f u s - text_step fs pots T d ev m' f u s) <= z)%R.
  Proof.
    intros Hd Hx Hy Hf Hu Sy Sx z. pose proof (pos_INR (K - 1)) as HK. pose proof (pos_INR (D - 1)) as HD.
    assert (Hdx : (0 <= INR (D - 1) * x)%R) by now apply Rmult_le_pos.
    assert (Hz : (0 <= z)%R).
    { unfold z. apply Rplus_le_le_0_compat; [apply Rmult_le_pos; lra|]. apply Rmult_le_pos; [lra|]. now apply Rmult_le_pos. }
    unfold text_step. apply normal_local; auto.
    assert (Sf : sp (fac_to_var fs pots T (var_to_fac fs ev m)) (fac_to_var fs pots T (var_to_fac fs ev m')) (f, u) (INR (K - 1) * (INR (D - 1) * x))%R).
    { apply fac_local; auto. intros u' Hu' Hne. apply var_local; auto. intros q Hq Eq Hqn. now apply (Sx u' q). }
    destruct Sy as [b Eb]. destruct Sf as [b' Eb']. exists (d * b + (1 - d) * b')%R. intros s Hs. specialize (Eb s Hs). specialize (Eb' s Hs). cbn [fst snd] in *.
    unfold damp. set (n1 := fac_to_var fs pots T (var_to_fac fs ev m) f u s) in *. set (n2 := fac_to_var fs pots T (var_to_fac fs ev m') f u s) in *.
    assert (X1 : (d * b <= d * (m f u s - m' f u s) <= d * (b + y))%R) by (split; apply Rmult_le_compat_l; lra).
    assert (X2 : ((1 - d) * b' <= (1 - d) * (n1 - n2) <= (1 - d) * (b' + INR (K - 1) * (INR (D - 1) * x)))%R) by (split; apply Rmult_le_compat_l; lra).
    unfold z. lra.
  Qed.

  Hypothesis Hac : acyclic fs.
  Lemma all_heights q : height fs (length fs) q.
  Proof. intros l b Hw _. pose proof (walk_short fs _ Hac l b Hw) as H. now rewrite seq_length in H. Qed.
  Lemma height_0 f u : f < length fs -> u < arity fs f -> ~ height fs 0 (f, u).
  Proof.
    intros Hf Hu H. assert (W : walk fs (seq 0 (length fs)) [] (f, u)) by (constructor; split; [apply in_seq; cbn; lia|exact Hu]). specialize (H _ _ W eq_refl). cbn in H. lia.
  Qed.
  (** Without damping the messages after as many iterations as there are factors do not
      depend on the initial ones. *)
  Lemma undamped_height m m' j n f u : f < length fs -> u < arity fs f -> height fs j (f, u) -> j <= n ->
    sp (text_bp fs pots T 0 ev m n) (text_bp fs pots T 0 ev m' n) (f, u) 0 /\
    forall s, s < snd (var_at fs f u) -> text_bp fs pots T 0 ev m n f u s = text_bp fs pots T 0 ev m' n f u s.
  Proof.
    revert f u n. induction j as [|j IH]; intros f u n Hf Hu Hh Hn; [now apply height_0 in Hh|]. destruct n as [|n]; [lia|].
    change (text_bp fs pots T 0 ev m (S n)) with (text_step fs pots T 0 ev (text_bp fs pots T 0 ev m n)).
    change (text_bp fs pots T 0 ev m' (S n)) with (text_step fs pots T 0 ev (text_bp fs pots T 0 ev m' n)).
    destruct (step_local 0 (text_bp fs pots T 0 ev m n) (text_bp fs pots T 0 ev m' n) f u 0 2000 ltac:(lra) (Rle_refl 0) ltac:(lra) Hf Hu) as [S1 S2].
    - destruct (bounded_near fs _ _ (text_bp_bounded fs T 0 pots ev m n) (text_bp_bounded fs T 0 pots ev m' n)) as [_ S0]. exact (S0 f u Hf Hu).
    - intros u' q Hu' Hne [Hq1 Hq2] Eq Hqn. destruct q as [f' u'']. apply in_seq in Hq1. cbn [fst snd] in *.
      apply (IH f' u'' n); [lia|exact Hq2| |lia]. apply (height_below fs j f u u' (f', u'')); auto. split; [apply in_seq; cbn; lia|exact Hq2].
    - replace (0 * 2000 + (1 - 0) * (INR (K - 1) * (INR (D - 1) * 0)))%R with 0%R in * by lra. split; [exact S1|]. intros s Hs.
      specialize (S2 s Hs). apply Rabs_between in S2. lra.
  Qed.
  Lemma undamped_same m m' n : length fs <= n -> msg_eq fs (text_bp fs pots T 0 ev m n) (text_bp fs pots T 0 ev m' n).
  Proof. intros Hn f u s Hf Hu Hs. apply (undamped_height m m' (length fs) n f u); auto. apply all_heights. Qed.

  (** With damping two runs approach each other. *)
  Lemma damped_height d th m m' n j f u : (0 <= d <= 1)%R -> (0 < th <= 1)%R -> f < length fs -> u < arity fs f -> height fs j (f, u) ->
    let z := (2000 * (reach_cost D K / th) ^ j * (d + (1 - d) * th) ^ n)%R in
    sp (text_bp fs pots T d ev m n) (text_bp fs pots T d ev m' n) (f, u) z /\
    forall s, s < snd (var_at fs f u) -> (Rabs (text_bp fs pots T d ev m n f u s - text_bp fs pots T d ev m' n f u s) <= z)%R.
  Proof.
    intros Hd Hth Hf Hu Hh. destruct (cost_pos D K) as [Hc1 Hc2]. set (mu := (reach_cost D K / th)%R). set (rho := (d + (1 - d) * th)%R).
    assert (Hmu : (1 <= mu)%R).
    { unfold mu. apply (Rmult_le_reg_r th); [lra|]. unfold Rdiv. rewrite Rmult_assoc, Rinv_l by lra. lra. }
    assert (Hrho : (0 <= rho)%R) by (unfold rho; assert (0 <= (1 - d) * th)%R by (apply Rmult_le_pos; lra); lra).
    assert (Hmj : forall j, (1 <= mu ^ j)%R) by (intros i; apply pow_R1_Rle; exact Hmu).
    assert (Hpn : forall n, (0 <= rho ^ n)%R) by (intros i; now apply pow_le).
    revert j f u Hf Hu Hh. induction n as [|n IH]; intros j f u Hf Hu Hh z.
    - destruct (bounded_near fs _ _ (text_bp_bounded fs T d pots ev m 0) (text_bp_bounded fs T d pots ev m' 0)) as [N0 S0].
      assert (Hz : (2000 <= z)%R) by (unfold z; cbn [pow]; specialize (Hmj j); lra). split.
      + eapply spread_mono; [exact Hz|]. exact (S0 f u Hf Hu).
      + intros s Hs. eapply Rle_trans; [exact (N0 f u s Hf Hu Hs)|exact Hz].
    - destruct j as [|j]; [now apply height_0 in Hh|].
      change (text_bp fs pots T d ev m (S n)) with (text_step fs pots T d ev (text_bp fs pots T d ev m n)).
      change (text_bp fs pots T d ev m' (S n)) with (text_step fs pots T d ev (text_bp fs pots T d ev m' n)).
      set (x := (2000 * mu ^ j * rho ^ n)%R). set (y := (2000 * mu ^ S j * rho ^ n)%R).
      assert (Hx : (0 <= x)%R) by (unfold x; apply Rmult_le_pos; [specialize (Hmj j); lra|apply Hpn]).
      assert (Hy : (0 <= y)%R) by (unfold y; apply Rmult_le_pos; [specialize (Hmj (S j)); lra|apply Hpn]).
      destruct (step_local d (text_bp fs pots T d ev m n) (text_bp fs pots T d ev m' n) f u x y Hd Hx Hy Hf Hu) as [S1 S2].
      + apply (IH (S j) f u Hf Hu Hh).
      + intros u' q Hu' Hne [Hq1 Hq2] Eq Hqn. destruct q as [f' u'']. apply in_seq in Hq1. cbn [fst snd] in *.
        apply (IH j f' u''); [lia|exact Hq2|]. apply (height_below fs j f u u' (f', u'')); auto. split; [apply in_seq; cbn; lia|exact Hq2].
      + assert (Hle : (d * y + (1 - d) * (INR (K - 1) * (INR (D - 1) * x)) <= z)%R).
        { assert (E : (reach_cost D K * x = th * y)%R) by (unfold x, y, mu; cbn [pow]; field; lra).
          assert (L : (INR (K - 1) * (INR (D - 1) * x) <= th * y)%R) by (rewrite <- E, <- Rmult_assoc; apply Rmult_le_compat_r; lra).
          replace z with (d * y + (1 - d) * (th * y))%R by (unfold z, y; fold mu rho; cbn [pow]; unfold rho at 3; ring).
          apply Rplus_le_compat_l. apply Rmult_le_compat_l; lra. }
        split; [eapply spread_mono; [exact Hle|exact S1]|]. intros s Hs. eapply Rle_trans; [exact (S2 s Hs)|exact Hle].
  Qed.
  Lemma damped_near d th m m' n : (0 <= d <= 1)%R -> (0 < th <= 1)%R ->
    msgs_spread fs (text_bp fs pots T d ev m n) (text_bp fs pots T d ev m' n) (tree_bound D K (length fs) d th n) /\
    msgs_near fs (text_bp fs pots T d ev m n) (text_bp fs pots T d ev m' n) (tree_bound D K (length fs) d th n).
  Proof.
    intros Hd Hth. split.
    - intros f u Hf Hu. destruct (damped_height d th m m' n (length fs) f u Hd Hth Hf Hu (all_heights _)) as [S _]. exact S.
    - intros f u s Hf Hu Hs. destruct (damped_height d th m m' n (length fs) f u Hd Hth Hf Hu (all_heights _)) as [_ S]. exact (S s Hs).
  Qed.
End Text.

(** A fixed point without damping is one with damping. *)
Section Refix.
  Context {A : Type} (fs : list (sfactor A)) (pots : nat -> nat -> R) (T : R) (ev : variable -> nat -> R).
  Hypothesis Hpos : forall f u, f < length fs -> u < arity fs f -> 0 < snd (var_at fs f u).
  Lemma refix d l : (0 <= d <= 1)%R -> msg_eq fs (text_step fs pots T 0 ev l) l -> msg_eq fs (text_step fs pots T d ev l) l.
  Proof.
    intros Hd Fx f u s Hf Hu Hs. pose proof (Hpos f u Hf Hu) as Hp. set (G := fac_to_var fs pots T (var_to_fac fs ev l)) in *.
    set (ss := seq 0 (snd (var_at fs f u))). set (M := rmaxs (map (G f u) ss)).
    assert (E0 : forall t, t < snd (var_at fs f u) -> l f u t = Rmax (-1000) (G f u t - M)).
    { intros t Ht. rewrite <- (Fx f u t Hf Hu Ht). unfold text_step, normal. fold G.
      assert (Ed : forall t, damp 0 l G f u t = G f u t) by (intros t'; unfold damp; lra). rewrite Ed, (map_ext _ _ Ed). reflexivity. }
    assert (Hle : forall t, t < snd (var_at fs f u) -> (G f u t <= M)%R).
    { intros t Ht. apply rmaxs_ub. apply in_map. apply in_seq. lia. }
    assert (Hl0 : forall t, t < snd (var_at fs f u) -> (l f u t <= 0)%R).
    { intros t Ht. rewrite (E0 t Ht). apply Rmax_lub; [lra|]. specialize (Hle t Ht). lra. }
    assert (EM : rmaxs (map (damp d l G f u) ss) = ((1 - d) * M)%R).
    { apply rmaxs_eq.
      - assert (Hi : In M (map (G f u) ss)) by (apply rmaxs_In; unfold ss; destruct (snd (var_at fs f u)); [lia|discriminate]).
        apply in_map_iff in Hi. destruct Hi as [t [Et Ht]]. apply in_map_iff. exists t. split; [|exact Ht]. apply in_seq in Ht.
        unfold damp. rewrite (E0 t) by lia. rewrite Et. rewrite Rminus_diag_eq by reflexivity. rewrite Rmax_right by lra. lra.
      - intros y Hy. apply in_map_iff in Hy. destruct Hy as [t [<- Ht]]. apply in_seq in Ht. unfold damp. specialize (Hl0 t ltac:(lia)). specialize (Hle t ltac:(lia)).
        assert (d * l f u t <= d * 0)%R by (apply Rmult_le_compat_l; lra). assert ((1 - d) * G f u t <= (1 - d) * M)%R by (apply Rmult_le_compat_l; lra). lra. }
    unfold text_step, normal. fold G ss. rewrite EM. unfold damp. rewrite (E0 s Hs).
    destruct (Rle_lt_dec (-1000) (G f u s - M)) as [H|H].
    - rewrite (Rmax_right (-1000) (G f u s - M)) by exact H. replace (d * (G f u s - M) + (1 - d) * G f u s - (1 - d) * M)%R with (G f u s - M)%R by ring. now apply Rmax_right.
    - rewrite (Rmax_left (-1000) (G f u s - M)) by lra. apply Rmax_left. assert ((1 - d) * (G f u s - M) <= (1 - d) * -1000)%R by (apply Rmult_le_compat_l; lra). lra.
  Qed.
End Refix.

(** ** Elementary bounds *)
Lemma tree_bound_nonneg D K F d th n : (0 <= d <= 1)%R -> (0 < th <= 1)%R -> (0 <= tree_bound D K F d th n)%R.
Proof.
  intros Hd Hth. unfold tree_bound. destruct (cost_pos D K) as [H1 _]. apply Rmult_le_pos; [apply Rmult_le_pos; [lra|]|]; apply pow_le.
  - apply Rmult_le_pos; [lra|]. left. apply Rinv_0_lt_compat. lra.
  - assert (0 <= (1 - d) * th)%R by (apply Rmult_le_pos; lra). lra.
Qed.
Lemma tree_rate d th : (0 <= d < 1)%R -> (0 < th < 1)%R -> (0 <= d + (1 - d) * th < 1)%R.
Proof.
  intros Hd Hth. assert (0 <= (1 - d) * th)%R by (apply Rmult_le_pos; lra). assert ((1 - d) * th < (1 - d) * 1)%R by (apply Rmult_lt_compat_l; lra). lra.
Qed.
Lemma C58_rate_lemma D K F d th : (0 <= d < 1)%R -> (0 < th < 1)%R ->
  forall eps, (0 < eps)%R -> exists N, forall n, N <= n -> (tree_bound D K F d th n < eps)%R.
Proof. intros Hd Hth eps He. unfold tree_bound. apply pow_small; [now apply tree_rate|exact He]. Qed.
Lemma gibbs_spread n b b' e s : s < n -> spread n b b' e -> (0 <= e)%R ->
  (exp (- e) * gibbs b' n s <= gibbs b n s <= exp e * gibbs b' n s)%R.
Proof.
  intros Hs [k Hk] He. unfold gibbs. set (Z := rsum (map (fun t => exp (b t)) (seq 0 n))). set (Z' := rsum (map (fun t => exp (b' t)) (seq 0 n))).
  assert (Hpos : forall h : nat -> R, (0 < rsum (map (fun t => exp (h t)) (seq 0 n)))%R).
  { intros h. apply LemNum.rsum_pos; [destruct n; [lia|discriminate]|]. intros y Hy. apply in_map_iff in Hy. destruct Hy as [t [<- _]]. apply exp_pos. }
  assert (HZ : (0 < Z)%R) by apply Hpos. assert (HZ' : (0 < Z')%R) by apply Hpos.
  assert (Hb : (exp k * exp (b' s) <= exp (b s) <= exp (k + e) * exp (b' s))%R).
  { rewrite <- !exp_plus. specialize (Hk s Hs). split; apply LemTemp.exp_le; lra. }
  assert (HZZ : (exp k * Z' <= Z <= exp (k + e) * Z')%R).
  { unfold Z, Z'. rewrite <- !LemNum.rsum_scal. split; apply LemNum.rsum_le; intros t Ht; apply in_seq in Ht; rewrite <- exp_plus; specialize (Hk t ltac:(lia)); apply LemTemp.exp_le; lra. }
  pose proof (exp_pos k) as Pk. pose proof (exp_pos (b' s)) as Pb'. pose proof (exp_pos e) as Pe.
  rewrite exp_Ropp. rewrite exp_plus in Hb, HZZ. split.
  - apply (Rmult_le_reg_r (exp e * Z * Z')); [apply Rmult_lt_0_compat; [apply Rmult_lt_0_compat|]; assumption|].
    replace (/ exp e * (exp (b' s) / Z') * (exp e * Z * Z'))%R with (exp (b' s) * Z)%R by (field; split; lra).
    replace (exp (b s) / Z * (exp e * Z * Z'))%R with (exp (b s) * (exp e * Z'))%R by (field; lra).
    apply (Rle_trans _ (exp (b' s) * (exp k * exp e * Z'))); [apply Rmult_le_compat_l; lra|].
    replace (exp (b' s) * (exp k * exp e * Z'))%R with (exp k * exp (b' s) * (exp e * Z'))%R by ring.
    apply Rmult_le_compat_r; [apply Rmult_le_pos; lra|lra].
  - apply (Rmult_le_reg_r (Z * Z')); [now apply Rmult_lt_0_compat|].
    replace (exp e * (exp (b' s) / Z') * (Z * Z'))%R with (exp e * exp (b' s) * Z)%R by (field; lra).
    replace (exp (b s) / Z * (Z * Z'))%R with (exp (b s) * Z')%R by (field; lra).
    apply (Rle_trans _ (exp k * exp e * exp (b' s) * Z')); [apply Rmult_le_compat_r; lra|].
    replace (exp k * exp e * exp (b' s) * Z')%R with (exp e * exp (b' s) * (exp k * Z'))%R by ring.
    apply Rmult_le_compat_l; [apply Rmult_le_pos; lra|lra].
Qed.

(** ** Runs on a graph *)
Section Graph.
  Context (vgs : list vgroup) (g : fgraph R) (T : R) (c : bp_ctx R).
  Hypothesis Hok : groups_ok vgs.
  Hypothesis Hr : reachable vgs g.
  Hypothesis Hwf : wf_groups (gr_groups g).
  Hypothesis Hbp : bp_of g T c.
  Context (a : bp_arrays R).
  Hypothesis Ha : arrays_of c a.
  Let fs := graph_factors 0%R (gr_groups g).
  Let pots := graph_pots (gr_groups g) (ba_log_potentials a).
  Let ne := length (enum_factors (gr_groups g)).
  Let lens := map snd (sf_edges fs).
  Let evs := read_ev (gr_vars_to_starts g) (ba_evidence a).
  Let xs := all_vars vgs.
  Context (B P : R) (D1 K1 D K : nat).
  Hypothesis M : moderate fs pots ne evs B P D1 K1.
  Hypothesis HT : (0 <= T)%R.
  Hypothesis Hsup : supported lens.
  Hypothesis Hdeg : degrees fs D K.
  Hypothesis Hac : acyclic fs.
  Let start m := length m = length (ba_ftov_msgs a) /\ above_floor lens m.
  Let run d m n := ba_ftov_msgs (run_bp c (with_msgs a m) n d).
  Let bound := tree_bound D K (length fs).
  Lemma damp_cfg : configs_ok fs. Proof. now apply graph_configs_ok. Qed.
  Lemma damp_pos f u : f < length fs -> u < arity fs f -> 0 < snd (var_at fs f u). Proof. now apply positive_states. Qed.
  Lemma damp_cov : covered fs.
  Proof. apply (graph_covered (gr_groups g) Hwf). destruct M as [_ [_ [_ [_ [H _]]]]]. exact H. Qed.
  Lemma damp_total : length (ba_ftov_msgs a) = total_states fs.
  Proof. exact (conv_total vgs g T c Hok Hr Hwf Hbp a Ha). Qed.
  Lemma damp_length d m n : start m -> length (run d m n) = total_states fs.
  Proof. intros [L _]. exact (run_total vgs g T c Hok Hr Hwf Hbp d a Ha m n L). Qed.
  Lemma damp_text d m n : (0 <= d <= 1)%R -> start m -> msg_eq fs (read_msgs fs (run d m n)) (text_bp fs pots T d evs (read_msgs fs m) n).
  Proof.
    intros Hd [E F]. apply (C39_lemma vgs g T c Hok Hr Hwf Hbp (with_msgs a m) (with_arrays c a Ha m E) d n Hsup).
    - intros i Hi. apply (above_floor_run vgs g T c Hok Hr Hwf Hbp (with_msgs a m) (with_arrays c a Ha m E) B P D1 K1 M HT Hsup F d Hd n i Hi).
    - intros i Hi. apply (in_range_text g T Hwf (with_msgs a m) B P D1 K1 M).
  Qed.
  Lemma damp_start d m n : (0 <= d <= 1)%R -> start m -> start (run d m n).
  Proof.
    intros Hd [L F]. apply (normal_start vgs g T c Hok Hr Hwf Hbp Hsup a Ha); [rewrite damp_length by (split; assumption); symmetry; apply damp_total|].
    exact (C29_bounded_lemma vgs g T c (with_msgs a m) B P D1 K1 d Hok Hr Hwf Hbp (with_arrays c a Ha m L) M HT Hd Hsup F n).
  Qed.
  Lemma damp_later d m n k : (0 <= d <= 1)%R -> start m -> run d (run d m n) k = run d m (n + k).
  Proof.
    intros Hd [L F]. unfold run at 1. change (with_msgs a (run d m n)) with (run_bp c (with_msgs a m) n d).
    now rewrite (C31_bounded_lemma vgs g T c (with_msgs a m) B P D1 K1 d Hok Hr Hwf Hbp (with_arrays c a Ha m L) M HT Hd Hsup F n k).
  Qed.
  Lemma damp_run_near d th m m' n : (0 <= d <= 1)%R -> (0 < th <= 1)%R -> start m -> start m' ->
    msgs_spread fs (read_msgs fs (run d m n)) (read_msgs fs (run d m' n)) (bound d th n) /\
    msgs_near fs (read_msgs fs (run d m n)) (read_msgs fs (run d m' n)) (bound d th n).
  Proof.
    intros Hd Hth Hm Hm'.
    destruct (damped_near fs D K damp_cfg damp_cov Hdeg damp_pos T pots evs HT Hac d th (read_msgs fs m) (read_msgs fs m') n Hd Hth) as [I1 I2].
    split; [revert I1; apply (spread_eq g)|revert I2; apply (near_eq g)]; apply msg_eq_sym; now apply damp_text.
  Qed.
  Let m0 := map (fun _ => 0%R) (ba_ftov_msgs a).
  Let lim := run 0 m0 (length fs).
  Lemma m0_start : start m0.
  Proof. exact (zero_start vgs g T c Hok Hr Hwf Hbp Hsup a Ha). Qed.
  Lemma lim_start : start lim.
  Proof. apply damp_start; [lra|apply m0_start]. Qed.
  Lemma lim_reached m n : start m -> length fs <= n -> run 0 m n = lim.
  Proof.
    intros Hm Hn. apply (read_ext fs); [now apply damp_length|apply damp_length, m0_start|].
    assert (E : msg_eq fs (read_msgs fs (run 0 m n)) (read_msgs fs (run 0 (run 0 m0 (n - length fs)) (length fs)))).
    { rewrite <- (Nat.sub_add (length fs) n Hn) at 1. rewrite <- damp_later by (lra || exact Hm).
      eapply msg_eq_trans; [apply damp_text; [lra|apply damp_start; [lra|exact Hm]]|].
      eapply msg_eq_trans; [|apply msg_eq_sym, damp_text; [lra|apply damp_start; [lra|apply m0_start]]].
      now apply (undamped_same fs D K damp_cfg damp_cov Hdeg damp_pos T pots evs HT Hac). }
    eapply msg_eq_trans; [exact E|]. unfold lim. 
    eapply msg_eq_trans; [apply damp_text; [lra|apply damp_start; [lra|apply m0_start]]|].
    eapply msg_eq_trans; [|apply msg_eq_sym, damp_text; [lra|apply m0_start]].
    now apply (undamped_same fs D K damp_cfg damp_cov Hdeg damp_pos T pots evs HT Hac).
  Qed.
  Lemma lim_step : msg_eq fs (text_step fs pots T 0 evs (read_msgs fs lim)) (read_msgs fs lim).
  Proof.
    apply fixed_step; [exact damp_cfg|exact damp_pos|].
    eapply msg_eq_trans; [|apply damp_text; [lra|apply lim_start]].
    assert (E : run 0 lim 1 = lim); [|rewrite E; intros f u s _ _ _; reflexivity].
    unfold lim at 1. rewrite damp_later by (lra || apply m0_start). apply lim_reached; [apply m0_start|lia].
  Qed.
  Lemma lim_fixed d n : (0 <= d <= 1)%R -> run d lim n = lim.
  Proof.
    intros Hd. apply (read_ext fs); [apply damp_length, lim_start|apply damp_length, m0_start|].
    eapply msg_eq_trans; [apply damp_text; [exact Hd|apply lim_start]|].
    pose proof (refix fs pots T evs damp_pos d (read_msgs fs lim) Hd lim_step) as Fx.
    induction n as [|n IH].
    - eapply msg_eq_trans; [apply normal_cong; [exact damp_pos|apply msg_eq_sym, Fx]|]. eapply msg_eq_trans; [|exact Fx]. apply normal_normal.
    - eapply msg_eq_trans; [|exact Fx]. apply (step_eq fs pots T d evs _ _ damp_cfg damp_pos IH).
  Qed.
  Lemma lim_near d th m n : (0 <= d <= 1)%R -> (0 < th <= 1)%R -> start m ->
    msgs_spread fs (read_msgs fs (run d m n)) (read_msgs fs lim) (bound d th n) /\
    msgs_near fs (read_msgs fs (run d m n)) (read_msgs fs lim) (bound d th n).
  Proof. intros Hd Hth Hm. pose proof (damp_run_near d th m lim n Hd Hth Hm lim_start) as H. rewrite (lim_fixed d n Hd) in H. exact H. Qed.
  Lemma lim_entries d th m n i : (0 <= d <= 1)%R -> (0 < th <= 1)%R -> start m -> (Rabs (nth i (run d m n) 0 - nth i lim 0) <= bound d th n)%R.
  Proof.
    intros Hd Hth Hm. apply (near_entries g); [now apply damp_length|apply damp_length, m0_start|now apply tree_bound_nonneg|now apply lim_near].
  Qed.
  Lemma damp_periodic d m n j : (0 <= d <= 1)%R -> start m -> run d m n = m -> run d m (j * n) = m.
  Proof.
    intros Hd Hm E. assert (E0 : run d m 0 = m) by (rewrite <- E at 1; rewrite damp_later by auto; rewrite Nat.add_0_r; exact E).
    induction j as [|j IH]; [exact E0|]. change (S j * n) with (n + j * n). rewrite <- damp_later by auto. now rewrite E.
  Qed.
  Lemma C58_converges_lemma : exists l, start l /\ (forall d n, (0 <= d <= 1)%R -> run d l n = l) /\
    (forall m n, start m -> length fs <= n -> run 0 m n = l) /\
    (forall d th m n i, (0 <= d <= 1)%R -> (0 < th <= 1)%R -> start m -> (Rabs (nth i (run d m n) 0 - nth i l 0) <= bound d th n)%R) /\
    (forall d m n, (0 <= d < 1)%R -> start m -> 0 < n -> run d m n = m -> m = l).
  Proof.
    exists lim. split; [exact lim_start|]. split; [intros d n; apply lim_fixed|]. split; [exact lim_reached|]. split; [intros d th m n i; apply lim_entries|].
    intros d m n Hd Hm Hn E. apply (nth_ext _ _ 0%R 0%R); [rewrite (proj1 Hm), (proj1 lim_start); reflexivity|]. intros i _.
    destruct (Req_dec (nth i m 0%R) (nth i lim 0%R)) as [Q|Q]; [exact Q|exfalso].
    assert (Hp : (0 < Rabs (nth i m 0 - nth i lim 0))%R) by (apply Rabs_pos_lt; lra).
    destruct (C58_rate_lemma D K (length fs) d (1/2) Hd ltac:(lra) _ Hp) as [N HN].
    pose proof (lim_entries d (1/2) m (N * n) i ltac:(lra) ltac:(lra) Hm) as H. rewrite damp_periodic in H by (lra || assumption).
    specialize (HN (N * n) ltac:(destruct n; [lia|]; rewrite Nat.mul_succ_r; lia)). unfold bound in H. lra.
  Qed.

  (** ** Beliefs *)
  Lemma lim_belief d th m n x : (0 <= d <= 1)%R -> (0 < th <= 1)%R -> start m ->
    spread (snd x) (text_belief fs evs (read_msgs fs (run d m n)) x) (text_belief fs evs (read_msgs fs lim) x) (INR D * bound d th n)%R /\
    forall s, s < snd x -> (Rabs (text_belief fs evs (read_msgs fs (run d m n)) x s - text_belief fs evs (read_msgs fs lim) x s) <= INR D * bound d th n)%R.
  Proof.
    intros Hd Hth Hm. destruct (lim_near d th m n Hd Hth Hm) as [S1 N1]. pose proof (tree_bound_nonneg D K (length fs) d th n Hd Hth) as Hb. fold bound in Hb.
    unfold text_belief. split.
    - rewrite <- (Rplus_0_l (INR D * bound d th n)). apply (spread_plus _ (evs x) (evs x)); [apply spread_zero|].
      apply (spread_sum _ (fun fu => read_msgs fs (run d m n) (fst fu) (snd fu)) (fun fu => read_msgs fs lim (fst fu) (snd fu))); [exact Hb|apply (proj1 Hdeg)|].
      intros [f u] Hi. apply In_slots_of in Hi. destruct Hi as [H1 [H2 H3]]. cbn [fst snd]. rewrite <- H3. now apply S1.
    - intros s Hs. set (h := fun fu : nat * nat => read_msgs fs (run d m n) (fst fu) (snd fu) s). set (h' := fun fu : nat * nat => read_msgs fs lim (fst fu) (snd fu) s).
      replace (evs x s + rsum (map h (slots_of fs x)) - (evs x s + rsum (map h' (slots_of fs x))))%R with (rsum (map h (slots_of fs x)) - rsum (map h' (slots_of fs x)))%R by lra.
      rewrite <- rsum_minus. pose proof (proj1 Hdeg x) as HD.
      assert (G : forall l k, length l <= k -> (forall fu, In fu l -> In fu (slots_of fs x)) -> (Rabs (rsum (map (fun fu => h fu - h' fu) l)) <= INR k * bound d th n)%R).
      { induction l as [|fu l IH]; intros k Hk Hl.
        - cbn [map]. rewrite rsum_nil, Rabs_R0. apply Rmult_le_pos; [apply pos_INR|exact Hb].
        - destruct k as [|k]; [cbn in Hk; lia|]. cbn [map]. rewrite rsum_cons, S_INR. eapply Rle_trans; [apply Rabs_triang|].
          specialize (IH k ltac:(cbn in Hk; lia) (fun q Hq => Hl q (or_intror Hq))).
          assert (Q : (Rabs (h fu - h' fu) <= bound d th n)%R).
          { pose proof (Hl fu (or_introl eq_refl)) as Hi. destruct fu as [f u]. apply In_slots_of in Hi. destruct Hi as [H1 [H2 H3]]. apply (N1 f u s); auto. now rewrite H3. }
          lra. }
      apply G; [exact HD|auto].
  Qed.
  Hypothesis Hpos : forall gr n, In gr vgs -> In n (vg_num_states gr) -> 0 < n.
  Hypothesis Har : forall f, f < length fs -> 0 < arity fs f.
  Context (P' B' : R) (N' : nat).
  Hypothesis Hsm : small fs T pots evs (fun _ _ _ => 0%R) P' B' 0 N'.
  Lemma lim_unclipped i : unclipped fs (fac_to_var fs pots T (var_to_fac fs evs (text_bp fs pots T 0 evs (read_msgs fs m0) i))).
  Proof.
    assert (Z : forall f u s, read_msgs fs m0 f u s = 0%R).
    { intros f u s. unfold read_msgs, m0. generalize (slot_index fs f u s). induction (ba_ftov_msgs a) as [|y l IH]; intros [|k]; cbn; auto. }
    apply (small_lemma fs pots T evs _ P' B' 0 N' Hac damp_cfg damp_cov damp_pos HT).
    destruct Hsm as [S1 [S2 [S3 [S4 [S5 S6]]]]]. do 4 (split; [assumption|]). split; [|exact S6]. intros f u s s' _ _ _ _. rewrite !Z. lra.
  Qed.
  Lemma lim_text_belief x s : text_belief fs evs (read_msgs fs lim) x s = text_belief fs evs (text_bp fs pots T 0 evs (read_msgs fs m0) (length fs)) x s \/ snd x <= s.
  Proof.
    destruct (Nat.lt_ge_cases s (snd x)) as [Hs|Hs]; [left|now right]. unfold text_belief. f_equal. apply rsum_ext. intros [f u] Hi.
    apply In_slots_of in Hi. destruct Hi as [H1 [H2 H3]]. cbn [fst snd]. apply (damp_text 0 m0 (length fs)); auto; [lra|apply m0_start|now rewrite H3].
  Qed.
  Lemma xs_some x : In x xs -> 0 < snd x.
  Proof.
    intros Hx. unfold xs, all_vars in Hx. apply in_concat in Hx. destruct Hx as [l [Hl Hx]]. apply in_map_iff in Hl. destruct Hl as [gr [<- Hg]].
    apply In_nth_error in Hx. destruct Hx as [i Hi]. exact (LemBeliefs.var_pos vgs Hok Hpos gr i x Hg Hi).
  Qed.
  Lemma xs_edges : incl (sf_edges fs) xs.
  Proof. intros x Hx. apply (edges_vars vgs g T c Hok Hr Hwf Hbp). exact Hx. Qed.
  Lemma lim_exact x : T = 0%R -> In x xs -> exists k, forall s, s < snd x -> max_marginal fs pots evs xs x s (text_belief fs evs (read_msgs fs lim) x s + k)%R.
  Proof.
    intros H0 Hx. destruct (C42_text_lemma fs pots evs xs (read_msgs fs m0) (length fs) Hac damp_cfg damp_cov Har (all_vars_NoDup vgs Hok) xs_edges xs_some (le_n _)) with (x := x) as [k Hk].
    - intros i _. rewrite <- fac_to_var_0. pose proof (lim_unclipped i) as U. now rewrite H0 in U.
    - exact Hx.
    - exists k. intros s Hs. destruct (lim_text_belief x s) as [E|E]; [|lia]. rewrite E, H0. now apply Hk.
  Qed.
  Lemma C58_beliefs_lemma : T = 0%R -> forall d th m n, (0 <= d <= 1)%R -> (0 < th <= 1)%R -> start m ->
    exists r b, get_beliefs c (run_bp c (with_msgs a m) n d) = Ok r /\ belief_table vgs r b /\
    forall x, In x xs -> exists (mm : nat -> R) (k : R), forall s, s < snd x ->
      max_marginal fs pots evs xs x s (mm s) /\ (Rabs (b x s - (mm s + k)) <= INR D * bound d th n)%R.
  Proof.
    intros H0 d th m n Hd Hth Hm.
    destruct (tables_belief vgs g T c Hok Hr Hwf Hbp (run_bp c (with_msgs a m) n d)) as [r [Er Tr]].
    { exact (with_arrays c a Ha (run d m n) (proj1 (damp_start d m n Hd Hm))). }
    { exact Hpos. }
    exists r. eexists. split; [exact Er|]. split; [exact Tr|]. intros x Hx. destruct (lim_exact x H0 Hx) as [k Hk].
    exists (fun s => text_belief fs evs (read_msgs fs lim) x s + k)%R, (- k)%R. intros s Hs. split; [now apply Hk|].
    replace (text_belief fs evs (read_msgs fs lim) x s + k + - k)%R with (text_belief fs evs (read_msgs fs lim) x s) by lra.
    exact (proj2 (lim_belief d th m n x Hd Hth Hm) s Hs).
  Qed.
  Hypothesis Hone : forall gr, In gr vgs -> one_state gr = false.
  Lemma C58_map_lemma : T = 0%R -> forall d th m n, (0 <= d <= 1)%R -> (0 < th <= 1)%R -> start m ->
    exists r q st, get_beliefs c (run_bp c (with_msgs a m) n d) = Ok r /\ decode_map_states r = Ok q /\ state_table vgs q st /\
    forall x s v, In x xs -> s < snd x -> max_marginal fs pots evs xs x s v ->
      (forall t w, t < snd x -> t <> s -> max_marginal fs pots evs xs x t w -> (w + INR D * bound d th n < v)%R) -> st x = s.
  Proof.
    intros H0 d th m n Hd Hth Hm.
    destruct (tables_state vgs g T c Hok Hr Hwf Hbp (run_bp c (with_msgs a m) n d)) as [r [q [Er [Eq [Tr Tq]]]]].
    { exact (with_arrays c a Ha (run d m n) (proj1 (damp_start d m n Hd Hm))). }
    { exact Hpos. } { exact Hone. }
    exists r, q. eexists. split; [exact Er|]. split; [exact Eq|]. split; [exact Tq|]. cbv beta. intros x s v Hx Hs Hv Hgap.
    destruct (lim_exact x H0 Hx) as [k Hk]. set (bl := text_belief fs evs (read_msgs fs lim) x) in *.
    assert (Uniq : forall t w w', max_marginal fs pots evs xs x t w -> max_marginal fs pots evs xs x t w' -> w = w').
    { intros t w w' [[st1 [cf1 [J1 [E1 V1]]]] U1] [[st2 [cf2 [J2 [E2 V2]]]] U2]. specialize (U1 st2 cf2 J2 E2). specialize (U2 st1 cf1 J1 E1). lra. }
    destruct (lim_belief d th m n x Hd Hth Hm) as [[k2 Sp] _].
    refine (first_best_spread bl _ (snd x) (INR D * bound d th n) s _ _ Hs _ (argmax_first_best _ _ _ (xs_some x Hx))).
    - exists (- k2 - INR D * bound d th n)%R. intros t Ht. specialize (Sp t Ht). fold bl in Sp. cbn [ba_ftov_msgs ba_evidence with_msgs run_bp] in *. unfold run in Sp. fold fs evs. lra.
    - intros t Ht Hne. specialize (Hgap t _ Ht Hne (Hk t Ht)). rewrite (Uniq s v _ Hv (Hk s Hs)) in Hgap. lra.
  Qed.

  Lemma eventually_all {Q} (H : Q -> nat -> Prop) l : (forall q, In q l -> exists N, forall n, N <= n -> H q n) -> exists N, forall q n, In q l -> N <= n -> H q n.
  Proof.
    induction l as [|q l IH]; intros X; [exists 0; intros q n []|]. destruct (X q (or_introl eq_refl)) as [N1 H1].
    destruct IH as [N2 H2]; [intros q' Hq; apply X; now right|]. exists (N1 + N2). intros q' n [<-|Hq] Hn; [apply H1; lia|apply H2; [exact Hq|lia]].
  Qed.
  Lemma C58_decodes_lemma : T = 0%R -> forall d best cfb, (0 <= d < 1)%R -> joint fs xs best cfb ->
    (forall st cf, joint fs xs st cf -> (joint_score fs pots evs xs st cf <= joint_score fs pots evs xs best cfb)%R /\
       ((exists x, In x xs /\ st x <> best x) -> (joint_score fs pots evs xs st cf < joint_score fs pots evs xs best cfb)%R)) ->
    exists N, forall m n, start m -> N <= n ->
    exists r q, get_beliefs c (run_bp c (with_msgs a m) n d) = Ok r /\ decode_map_states r = Ok q /\
      forall gr, In gr vgs -> exists y, dget vg_eqb gr q = Some y /\ forall i x, nth_error (vg_variables gr) i = Some x -> cell gr y i = [best x].
  Proof.
    intros H0 d best cfb Hd Jb Hb. set (v := joint_score fs pots evs xs best cfb) in *.
    destruct (eventually_all (fun (q : variable * nat) n => snd q <> best (fst q) -> forall w, max_marginal fs pots evs xs (fst q) (snd q) w -> (w + INR D * bound d (1/2) n < v)%R)
      (concat (map (fun x => map (fun t => (x, t)) (seq 0 (snd x))) xs))) as [N HN].
    { intros [x t] Hq. apply in_concat in Hq. destruct Hq as [l [Hl Hq]]. apply in_map_iff in Hl. destruct Hl as [y [<- Hy]]. apply in_map_iff in Hq. destruct Hq as [t' [E Ht]].
      injection E as -> ->. apply in_seq in Ht. cbn [fst snd]. destruct (Nat.eq_dec t (best x)) as [E|Hne]; [exists 0; intros n _ Q; contradiction|].
      destruct (lim_exact x H0 Hy) as [k Hk]. specialize (Hk t ltac:(lia)). set (w := (text_belief fs evs (read_msgs fs lim) x t + k)%R) in *.
      assert (Hw : (w < v)%R).
      { destruct (proj1 Hk) as [st [cf [J [E V]]]]. rewrite <- V. apply Hb; [exact J|]. exists x. split; [exact Hy|]. now rewrite E. }
      pose proof (pos_INR D) as HD.
      destruct (C58_rate_lemma D K (length fs) d (1/2) Hd ltac:(lra) ((v - w) / (INR D + 1))%R) as [N HN]; [apply Rdiv_lt_0_compat; lra|].
      exists N. intros n Hn _ w' Hw'. assert (Ew : w' = w).
      { destruct Hk as [[st1 [cf1 [J1 [E1 V1]]]] U1]. destruct Hw' as [[st2 [cf2 [J2 [E2 V2]]]] U2]. specialize (U1 st2 cf2 J2 E2). specialize (U2 st1 cf1 J1 E1). lra. }
      specialize (HN n Hn). fold bound in HN. rewrite Ew. pose proof (tree_bound_nonneg D K (length fs) d (1/2) n ltac:(lra) ltac:(lra)) as Hb0. fold bound in Hb0.
      apply (Rmult_lt_compat_r (INR D + 1)) in HN; [|lra]. replace ((v - w) / (INR D + 1) * (INR D + 1))%R with (v - w)%R in HN by (field; lra). lra. }
    exists N. intros m n Hm Hn. destruct (C58_map_lemma H0 d (1/2) m n ltac:(lra) ltac:(lra) Hm) as [r [q [st [Er [Eq [Tq Sq]]]]]].
    exists r, q. do 2 (split; [assumption|]). intros gr Hg. destruct (Tq gr Hg) as [y [Ey Cy]]. exists y. split; [exact Ey|]. intros i x Hi. rewrite (Cy i x Hi). f_equal.
    assert (Hx : In x xs). { unfold xs, all_vars. apply in_concat. exists (vg_variables gr). split; [now apply in_map|]. eapply nth_error_In. exact Hi. }
    apply (Sq x (best x) v Hx); [now apply (proj1 Jb)| |].
    - split; [exists best, cfb; auto|]. intros st' cf' J _. now apply Hb.
    - intros t w Ht Hne Hw. apply (HN (x, t) n); auto. apply in_concat. exists (map (fun t => (x, t)) (seq 0 (snd x))). split; [apply (in_map (fun x => map (fun t => (x, t)) (seq 0 (snd x)))), Hx|].
      apply in_map, in_seq. lia.
  Qed.
  Lemma C58_marginals_lemma : T = 1%R -> forall d th m n, (0 <= d <= 1)%R -> (0 < th <= 1)%R -> start m ->
    exists r q, get_beliefs c (run_bp c (with_msgs a m) n d) = Ok r /\ get_marginals r = Ok q /\
    forall gr, In gr vgs -> exists y, dget vg_eqb gr q = Some y /\ forall i x s, nth_error (vg_variables gr) i = Some x -> s < snd x ->
      exists p, nth_error (row gr y i) s = Some p /\
        (exp (- (INR D * bound d th n)) * marginal fs pots 1 evs xs x s <= p <= exp (INR D * bound d th n) * marginal fs pots 1 evs xs x s)%R.
  Proof.
    intros H1 d th m n Hd Hth Hm.
    destruct (C35_lemma vgs g T c Hok Hr Hwf Hbp (run_bp c (with_msgs a m) n d)) as [r [q [Er [Eq [_ Dq]]]]].
    { exact (with_arrays c a Ha (run d m n) (proj1 (damp_start d m n Hd Hm))). }
    { exact Hpos. } { exact Hone. }
    exists r, q. do 2 (split; [assumption|]). intros gr Hg. destruct (Dq gr Hg) as [y [Ey [_ Ry]]]. exists y. split; [exact Ey|]. intros i x s Hi Hs.
    assert (Hx : In x xs). { unfold xs, all_vars. apply in_concat. exists (vg_variables gr). split; [now apply in_map|]. eapply nth_error_In. exact Hi. }
    rewrite (Ry i x Hi). rewrite nth_error_app1 by (rewrite map_length, seq_length; exact Hs).
    eexists. split; [apply map_nth_error; rewrite (nth_error_nth' _ 0) by (rewrite seq_length; exact Hs); rewrite seq_nth by exact Hs; reflexivity|].
    destruct (C45_text_lemma fs pots T evs xs (read_msgs fs m0) (length fs) ltac:(lra) Hac damp_cfg damp_cov Har (all_vars_NoDup vgs Hok) xs_edges xs_some (le_n _)) with (x := x) as [Em _].
    { intros j _. apply lim_unclipped. } { exact Hx. }
    assert (E : marginal fs pots 1 evs xs x s = gibbs (text_belief fs evs (read_msgs fs lim) x) (snd x) s).
    { rewrite <- H1. rewrite (Em s Hs). apply gibbs_ext; [exact Hs|]. intros t Ht. destruct (lim_text_belief x t) as [E|E]; [|lia]. rewrite E, H1. field. }
    rewrite E. pose proof (tree_bound_nonneg D K (length fs) d th n Hd Hth) as Hb. fold bound in Hb.
    exact (gibbs_spread (snd x) _ _ (INR D * bound d th n) s Hs (proj1 (lim_belief d th m n x Hd Hth Hm)) (Rmult_le_pos _ _ (pos_INR D) Hb)).
  Qed.
End Graph.
