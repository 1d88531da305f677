(** * Proofs about attractive models (C66). *)
From Verif Require Import NumPy Lists VGroup FGraph BPState BP SpecVGroup SpecFGraph SpecFactor SpecAdd SpecWiring SpecState SpecBP SpecText SpecBeliefs SpecStable SpecConv SpecTree SpecMono.
From Verif Require Import LemFactor LemFGraph LemAdd LemWiring LemGraph LemState LemNum LemText LemRun LemBeliefs LemStable.
From Coq Require Import Reals Lra Lia Permutation.
Local Open Scope nat_scope.

(** ** Four functions on bit strings *)
Lemma four_pairs a0 a1 b0 b1 c0 c1 d0 d1 :
  (0 <= a0 -> 0 <= a1 -> 0 <= b0 -> 0 <= b1 -> 0 <= c0 -> 0 <= c1 -> 0 <= d0 -> 0 <= d1 ->
   a0 * b0 <= c0 * d0 -> a1 * b0 <= c1 * d0 -> a0 * b1 <= c1 * d0 -> a1 * b1 <= c1 * d1 ->
   (a0 + a1) * (b0 + b1) <= (c0 + c1) * (d0 + d1))%R.
Proof.
  intros A0 A1 B0 B1 C0 C1 D0 D1 H00 H10 H01 H11.
  destruct (Rle_lt_dec (c1 * d0) 0) as [Z|Z].
  - (* both mixed products vanish *)
    assert (0 <= a1 * b0)%R by (now apply Rmult_le_pos). assert (0 <= a0 * b1)%R by (now apply Rmult_le_pos).
    assert (0 <= c1 * d0)%R by (now apply Rmult_le_pos). assert (0 <= c0 * d1)%R by (now apply Rmult_le_pos). nra.
  - set (M := (c1 * d0)%R) in *. set (x := (a1 * b0)%R) in *. set (y := (a0 * b1)%R) in *.
    assert (Hx : (0 <= x)%R) by (unfold x; now apply Rmult_le_pos). assert (Hy : (0 <= y)%R) by (unfold y; now apply Rmult_le_pos).
    (* (a0 b0) (a1 b1) = x y and (c0 d0) (c1 d1) = M (c0 d1) *)
    set (N := (c0 * d1)%R).
    assert (P : (x * y <= M * N)%R).
    { replace (x * y)%R with ((a0 * b0) * (a1 * b1))%R by (unfold x, y; ring). replace (M * N)%R with ((c0 * d0) * (c1 * d1))%R by (unfold M, N; ring).
      apply Rmult_le_compat; auto using Rmult_le_pos. }
    assert (S : (x + y <= M + N)%R).
    { assert (0 <= (M - x) * (M - y))%R by (apply Rmult_le_pos; lra). assert (M * (x + y) <= M * (M + N))%R by nra. now apply Rmult_le_reg_l with M. }
    replace ((a0 + a1) * (b0 + b1))%R with (a0 * b0 + a1 * b1 + (x + y))%R by (unfold x, y; ring).
    replace ((c0 + c1) * (d0 + d1))%R with (c0 * d0 + c1 * d1 + (M + N))%R by (unfold M, N; ring). lra.
Qed.
(** Sum over all bit strings of length [k]. *)
Fixpoint bsum (k : nat) (p : list nat -> R) : R :=
  match k with O => p [] | S j => bsum j (fun l => Rplus (p (0 :: l)) (p (1 :: l))) end.
Definition bits (l : list nat) : Prop := Forall (fun b => b < 2) l.
Fixpoint zip (h : nat -> nat -> nat) (l l' : list nat) : list nat :=
  match l, l' with x :: r, y :: r' => h x y :: zip h r r' | _, _ => [] end.
Lemma four_functions k : forall p q r s : list nat -> R,
  (forall l, length l = k -> bits l -> (0 <= p l /\ 0 <= q l /\ 0 <= r l /\ 0 <= s l)%R) ->
  (forall l l', length l = k -> length l' = k -> bits l -> bits l' -> (p l * q l' <= r (zip Nat.max l l') * s (zip Nat.min l l'))%R) ->
  (bsum k p * bsum k q <= bsum k r * bsum k s)%R.
Proof.
  induction k as [|k IH]; intros p q r s Hn H.
  - apply (H [] []); constructor.
  - cbn [bsum]. assert (Bc : forall b l, b < 2 -> bits l -> bits (b :: l)) by (intros; now constructor). apply IH.
    + intros l Hl Hb. destruct (Hn (0 :: l)) as [A1 [A2 [A3 A4]]]; [cbn; lia|apply Bc; [lia|exact Hb]|].
      destruct (Hn (1 :: l)) as [B1 [B2 [B3 B4]]]; [cbn; lia|apply Bc; [lia|exact Hb]|]. lra.
    + intros l l' Hl Hl' Hb Hb'.
      assert (L : length (zip Nat.max l l') = k /\ length (zip Nat.min l l') = k /\ bits (zip Nat.max l l') /\ bits (zip Nat.min l l')).
      { clear - Hl Hl' Hb Hb'. revert l l' Hl Hl' Hb Hb'. induction k as [|k IH]; intros [|x l] [|y l'] Hl Hl' Hb Hb'; try discriminate; [repeat split; constructor|].
        inversion Hb; inversion Hb'; subst. destruct (IH l l') as [I1 [I2 [I3 I4]]]; auto. cbn. repeat split; try lia; constructor; auto; lia. }
      destruct L as [L1 [L2 [L3 L4]]].
      assert (N : forall b l, b < 2 -> length l = k -> bits l -> (0 <= p (b :: l) /\ 0 <= q (b :: l) /\ 0 <= r (b :: l) /\ 0 <= s (b :: l))%R) by (intros b z Hb2 Hz Hzb; apply Hn; [cbn; lia|now apply Bc]).
      assert (C : forall b b', b < 2 -> b' < 2 -> (p (b :: l) * q (b' :: l') <= r (Nat.max b b' :: zip Nat.max l l') * s (Nat.min b b' :: zip Nat.min l l'))%R).
      { intros b b' H1 H2. apply (H (b :: l) (b' :: l')); try (cbn; lia); now apply Bc. }
      pose proof (C 0 0 ltac:(lia) ltac:(lia)) as C00. pose proof (C 0 1 ltac:(lia) ltac:(lia)) as C01. pose proof (C 1 0 ltac:(lia) ltac:(lia)) as C10. pose proof (C 1 1 ltac:(lia) ltac:(lia)) as C11.
      cbn [Nat.max Nat.min] in *.
      apply four_pairs; auto; apply N; auto.
Qed.
Lemma bsum_ext k p q : (forall l, length l = k -> bits l -> p l = q l) -> bsum k p = bsum k q.
Proof.
  revert p q. induction k as [|k IH]; intros p q H; [apply H; [reflexivity|constructor]|]. cbn [bsum]. apply IH. intros l Hl Hb.
  rewrite (H (0 :: l)), (H (1 :: l)); try (cbn; lia); try (constructor; [lia|exact Hb]). reflexivity.
Qed.
Lemma bsum_plus k p q : bsum k (fun l => p l + q l)%R = (bsum k p + bsum k q)%R.
Proof.
  revert p q. induction k as [|k IH]; intros p q; [reflexivity|]. cbn [bsum]. rewrite <- IH. apply bsum_ext. intros; lra.
Qed.
Lemma bsum_zero k : bsum k (fun _ => 0%R) = 0%R.
Proof. induction k as [|k IH]; [reflexivity|]. cbn [bsum]. rewrite <- IH. apply bsum_ext. intros; lra. Qed.
Definition leqb (l l' : list nat) : bool := if list_eq_dec Nat.eq_dec l l' then true else false.
Lemma leqb_iff l l' : leqb l l' = true <-> l = l'.
Proof. unfold leqb. destruct (list_eq_dec _ l l'); split; congruence. Qed.
Lemma bsum_one k x w : length x = k -> bits x -> bsum k (fun l => if leqb x l then w else 0%R) = w.
Proof.
  revert x. induction k as [|k IH]; intros [|b x] Hl Hb; try discriminate; [reflexivity|].
  inversion Hb as [|? ? Hb1 Hb2]; subst. cbn [bsum].
  transitivity (bsum k (fun l => if leqb x l then w else 0%R)); [|apply IH; auto; cbn in Hl; lia]. apply bsum_ext. intros l _ _.
  destruct (leqb x l) eqn:E.
  - apply leqb_iff in E. subst l. destruct b as [|[|]]; [| |lia].
    + replace (leqb (0 :: x) (0 :: x)) with true by (symmetry; now apply leqb_iff). destruct (leqb (0 :: x) (1 :: x)) eqn:E2; [apply leqb_iff in E2; discriminate|lra].
    + replace (leqb (1 :: x) (1 :: x)) with true by (symmetry; now apply leqb_iff). destruct (leqb (1 :: x) (0 :: x)) eqn:E2; [apply leqb_iff in E2; discriminate|lra].
  - assert (X : forall c, leqb (b :: x) (c :: l) = false).
    { intros c. apply not_true_iff_false. intros Q. apply leqb_iff in Q. injection Q as _ Q. apply leqb_iff in Q. congruence. }
    rewrite !X. lra.
Qed.
(** A sum over a list, collected by the bit strings of its members. *)
Lemma bsum_collect {X} (cfg : X -> list nat) (w : X -> R) k l : (forall c, In c l -> length (cfg c) = k /\ bits (cfg c)) ->
  rsum (map w l) = bsum k (fun x => rsum (map w (filter (fun c => leqb (cfg c) x) l))).
Proof.
  induction l as [|c l IH]; intros H.
  - cbn. symmetry. apply bsum_zero.
  - cbn [map]. rewrite LemNum.rsum_cons, IH by (intros y Hy; apply H; now right). destruct (H c (or_introl eq_refl)) as [L B].
    rewrite <- (bsum_one k (cfg c) (w c) L B) at 1. rewrite <- bsum_plus. apply bsum_ext. intros x _ _. cbn [filter].
    destruct (leqb (cfg c) x); [cbn [map]; rewrite LemNum.rsum_cons; reflexivity|lra].
Qed.

(** ** Attractive factors *)
Lemma favours_refl n h : favours n h h.
Proof. intros s t _ _. lra. Qed.
Lemma favours_trans n h h' h'' : favours n h h' -> favours n h' h'' -> favours n h h''.
Proof. intros H H' s t Hst Hs. specialize (H s t Hst Hs). specialize (H' s t Hst Hs). lra. Qed.
Lemma favours_ext n h h' k k' : (forall s, s < n -> h s = k s) -> (forall s, s < n -> h' s = k' s) -> favours n h h' -> favours n k k'.
Proof. intros E E' H s t Hst Hs. rewrite <- (E s Hs), <- (E' s Hs), <- (E t ltac:(lia)), <- (E' t ltac:(lia)). now apply H. Qed.
Lemma favours_plus n h h' k k' : favours n h h' -> favours n k k' -> favours n (fun s => h s + k s)%R (fun s => h' s + k' s)%R.
Proof. intros H K s t Hst Hs. specialize (H s t Hst Hs). specialize (K s t Hst Hs). lra. Qed.
Lemma favours_sum {X} n (h h' : X -> nat -> R) l : (forall x, In x l -> favours n (h x) (h' x)) ->
  favours n (fun s => rsum (map (fun x => h x s) l)) (fun s => rsum (map (fun x => h' x s) l)).
Proof.
  induction l as [|x l IH]; intros H s t Hst Hs; [cbn; lra|]. cbn [map]. rewrite !LemNum.rsum_cons.
  pose proof (H x (or_introl eq_refl) s t Hst Hs). pose proof (IH (fun y Hy => H y (or_intror Hy)) s t Hst Hs). lra.
Qed.
Lemma rsum_nonneg {X} (w : X -> R) l : (forall x, In x l -> (0 <= w x)%R) -> (0 <= rsum (map w l))%R.
Proof. induction l as [|x l IH]; intros H; [cbn; lra|]. cbn [map]. rewrite LemNum.rsum_cons. pose proof (H x (or_introl eq_refl)). specialize (IH (fun y Hy => H y (or_intror Hy))). lra. Qed.
Lemma rsum_member {X} (w : X -> R) l x : In x l -> (forall y, In y l -> (0 <= w y)%R) -> (w x <= rsum (map w l))%R.
Proof.
  induction l as [|y l IH]; intros Hx H; [destruct Hx|]. cbn [map]. rewrite LemNum.rsum_cons. pose proof (H y (or_introl eq_refl)).
  pose proof (rsum_nonneg w l (fun z Hz => H z (or_intror Hz))). destruct Hx as [->|Hx]; [lra|]. specialize (IH Hx (fun z Hz => H z (or_intror Hz))). lra.
Qed.

Section Attract.
  Context {A : Type} (fs : list (sfactor A)) (pots : nat -> nat -> R).
  Hypothesis Hcfg : configs_ok fs.
  Hypothesis Hatt : attractive fs pots.
  Hypothesis Hcov : covered fs.

  Lemma in_choices f u s c : In c (choices fs f u s) <-> c < length (sf_configs (factor_at fs f)) /\ config_at_slot fs f c u = s.
  Proof. unfold choices. rewrite filter_In, in_seq, Nat.eqb_eq. intuition lia. Qed.
  Lemma slot_state f c u : f < length fs -> c < length (sf_configs (factor_at fs f)) -> u < arity fs f -> config_at_slot fs f c u < snd (var_at fs f u).
  Proof. intros Hf Hc Hu. destruct (Hcfg f c u Hf Hc) as [_ H]. specialize (H Hu). unfold config_at_slot. lia. Qed.
  (** Exchanging a configuration with state [s] for one with a lower state [t]. *)
  Lemma exchange v v' f u s t c c' : msgs_favour fs v v' -> f < length fs -> u < arity fs f -> t <= s ->
    In c (choices fs f u s) -> In c' (choices fs f u t) ->
    exists hi lo, In hi (choices fs f u s) /\ In lo (choices fs f u t) /\
      (forall k, k < arity fs f -> config_at_slot fs f hi k = Nat.max (config_at_slot fs f c k) (config_at_slot fs f c' k) /\
                                   config_at_slot fs f lo k = Nat.min (config_at_slot fs f c k) (config_at_slot fs f c' k)) /\
      (score_but fs pots v f c u + score_but fs pots v' f c' u <= score_but fs pots v' f hi u + score_but fs pots v f lo u)%R.
  Proof.
    intros Hv Hf Hu Hst Hc Hc'. apply in_choices in Hc, Hc'. destruct Hc as [Hc Es]. destruct Hc' as [Hc' Et].
    destruct (Hatt f c c' Hf Hc Hc') as [hi [lo [Hhi [Hlo [J P]]]]]. exists hi, lo. destruct (J u Hu) as [J1 J2].
    split; [apply in_choices; split; [exact Hhi|]; rewrite J1; lia|]. split; [apply in_choices; split; [exact Hlo|]; rewrite J2; lia|]. split; [exact J|].
    unfold score_but. set (l := filter _ _).
    assert (S : (rsum (map (fun k => v f k (config_at_slot fs f c k)) l) + rsum (map (fun k => v' f k (config_at_slot fs f c' k)) l)
                 <= rsum (map (fun k => v' f k (config_at_slot fs f hi k)) l) + rsum (map (fun k => v f k (config_at_slot fs f lo k)) l))%R); [|lra].
    assert (Hl : forall k, In k l -> k < arity fs f) by (intros k Hk; apply filter_In in Hk; destruct Hk as [Hk _]; apply in_seq in Hk; lia).
    induction l as [|k l IH]; [cbn; lra|]. cbn [map]. rewrite !LemNum.rsum_cons. specialize (IH (fun z Hz => Hl z (or_intror Hz))).
    pose proof (Hl k (or_introl eq_refl)) as Hk. destruct (J k Hk) as [-> ->].
    assert (v f k (config_at_slot fs f c k) + v' f k (config_at_slot fs f c' k) <= v' f k (Nat.max (config_at_slot fs f c k) (config_at_slot fs f c' k)) + v f k (Nat.min (config_at_slot fs f c k) (config_at_slot fs f c' k)))%R; [|lra].
    pose proof (slot_state f c k Hf Hc Hk) as B1.
    destruct (Nat.le_ge_cases (config_at_slot fs f c' k) (config_at_slot fs f c k)) as [L|L].
    - rewrite Nat.max_l, Nat.min_r by exact L. pose proof (Hv f k Hf Hk _ _ L B1). lra.
    - rewrite Nat.max_r, Nat.min_l by exact L. lra.
  Qed.
  Lemma rmaxs_ge l x : In x l -> (x <= rmaxs l)%R. Proof. apply LemNum.rmaxs_ub. Qed.
  Lemma max_favour v v' : msgs_favour fs v v' -> msgs_favour fs (fac_to_var_max fs pots v) (fac_to_var_max fs pots v').
  Proof.
    intros Hv f u Hf Hu s t Hst Hs. unfold fac_to_var_max.
    assert (I : forall w k, k < snd (var_at fs f u) -> exists c, In c (choices fs f u k) /\ rmaxs (map (fun c => score_but fs pots w f c u) (choices fs f u k)) = score_but fs pots w f c u).
    { intros w k Hk. pose proof (Hcov f u k Hf Hu Hk) as N. assert (In (rmaxs (map (fun c => score_but fs pots w f c u) (choices fs f u k))) (map (fun c => score_but fs pots w f c u) (choices fs f u k))) as Hi.
      { apply rmaxs_In. destruct (choices fs f u k); [congruence|discriminate]. }
      apply in_map_iff in Hi. destruct Hi as [c [E Hc]]. exists c. split; [exact Hc|now symmetry]. }
    destruct (I v s Hs) as [c [Hc Ec]]. destruct (I v' t ltac:(lia)) as [c' [Hc' Ec']]. rewrite Ec, Ec'.
    destruct (exchange v v' f u s t c c' Hv Hf Hu Hst Hc Hc') as [hi [lo [H1 [H2 [_ H3]]]]].
    pose proof (rmaxs_ge _ _ (in_map (fun c => score_but fs pots v' f c u) _ _ H1)). pose proof (rmaxs_ge _ _ (in_map (fun c => score_but fs pots v f c u) _ _ H2)). cbv beta in *. lra.
  Qed.
  Definition cfg f c := map (config_at_slot fs f c) (seq 0 (arity fs f)).
  Lemma zip_map h (p q : nat -> nat) l : zip h (map p l) (map q l) = map (fun k => h (p k) (q k)) l.
  Proof. induction l as [|k l IH]; [reflexivity|]. cbn. now rewrite IH. Qed.
  Lemma soft_favour T v v' : (0 < T)%R -> binary fs -> distinct fs -> msgs_favour fs v v' ->
    msgs_favour fs (fac_to_var_soft fs pots T v) (fac_to_var_soft fs pots T v').
  Proof.
    intros HT Hb Hd Hv f u Hf Hu s t Hst Hs. unfold fac_to_var_soft.
    set (w := fun (z : msg) c => exp (score_but fs pots z f c u / T)). set (Z := fun z k => rsum (map (w z) (choices fs f u k))).
    change ((T * ln (Z v s) - T * ln (Z v t) <= T * ln (Z v' s) - T * ln (Z v' t))%R).
    assert (W : forall z c, (0 < w z c)%R) by (intros; apply exp_pos).
    assert (Zp : forall z k, k < snd (var_at fs f u) -> (0 < Z z k)%R).
    { intros z k Hk. pose proof (Hcov f u k Hf Hu Hk) as N. unfold Z. destruct (choices fs f u k) as [|c l] eqn:E; [congruence|].
      apply Rlt_le_trans with (w z c); [apply W|]. apply rsum_member; [now left|]. intros; left; apply W. }
    assert (Ht : t < snd (var_at fs f u)) by lia.
    assert (Q : (Z v s * Z v' t <= Z v' s * Z v t)%R).
    { assert (Ok_ : forall k c, In c (choices fs f u k) -> length (cfg f c) = arity fs f /\ bits (cfg f c)).
      { intros k c Hc. apply in_choices in Hc. destruct Hc as [Hc _]. split; [unfold cfg; now rewrite map_length, seq_length|].
        apply Forall_forall. intros b Hb2. apply in_map_iff in Hb2. destruct Hb2 as [j [<- Hj]]. apply in_seq in Hj. rewrite <- (Hb f j Hf ltac:(lia)). apply slot_state; auto; lia. }
      unfold Z. rewrite !(bsum_collect (cfg f) _ (arity fs f)) by (intros c Hc; exact (Ok_ _ c Hc)).
      set (F := fun z k x => rsum (map (w z) (filter (fun c => leqb (cfg f c) x) (choices fs f u k)))).
      assert (Fp : forall z k x, (0 <= F z k x)%R) by (intros; apply rsum_nonneg; intros; left; apply W).
      apply (four_functions (arity fs f) (F v s) (F v' t) (F v' s) (F v t)); [intros; auto|].
      intros x y Lx Ly Bx By_.
      assert (One : forall z k y, F z k y = 0%R \/ exists c, In c (choices fs f u k) /\ cfg f c = y /\ F z k y = w z c).
      { intros z k y0. unfold F. destruct (filter _ _) as [|c [|c2 l]] eqn:E; [now left| |].
        - right. exists c. assert (In c [c]) as Hc by now left. rewrite <- E in Hc. apply filter_In in Hc. destruct Hc as [Hc Ec]. apply leqb_iff in Ec.
          split; [exact Hc|]. split; [exact Ec|]. cbn [map]. rewrite LemNum.rsum_cons. cbn. lra.
        - exfalso. assert (N : NoDup (c :: c2 :: l)) by (rewrite <- E; apply NoDup_filter, NoDup_filter, seq_NoDup).
          assert (In c (c :: c2 :: l)) as Hc by now left. assert (In c2 (c :: c2 :: l)) as Hc2 by (right; now left). rewrite <- E in Hc, Hc2.
          apply filter_In in Hc, Hc2. destruct Hc as [Hc Ec]. destruct Hc2 as [Hc2 Ec2]. apply leqb_iff in Ec, Ec2. apply in_choices in Hc, Hc2.
          assert (c = c2); [|subst; inversion N; subst; cbn in *; tauto]. apply (Hd f c c2 Hf); try tauto. intros j Hj.
          pose proof (f_equal (fun l => nth j l 0) (eq_trans Ec (eq_sym Ec2))) as X. cbv beta in X. unfold cfg in X. rewrite !nth_map_seq in X by exact Hj. exact X. }
      destruct (One v s x) as [->|[c [Hc [Ex ->]]]]; [rewrite Rmult_0_l; apply Rmult_le_pos; apply Fp|].
      destruct (One v' t y) as [->|[c' [Hc' [Ey ->]]]]; [rewrite Rmult_0_r; apply Rmult_le_pos; apply Fp|].
      destruct (exchange v v' f u s t c c' Hv Hf Hu Hst Hc Hc') as [hi [lo [H1 [H2 [J H3]]]]].
      apply Rle_trans with (w v' hi * w v lo)%R.
      - unfold w. rewrite <- !exp_plus. assert (X : (score_but fs pots v f c u / T + score_but fs pots v' f c' u / T <= score_but fs pots v' f hi u / T + score_but fs pots v f lo u / T)%R).
        { unfold Rdiv. rewrite <- !Rmult_plus_distr_r. apply Rmult_le_compat_r; [left; now apply Rinv_0_lt_compat|exact H3]. }
        destruct X as [X|X]; [left; now apply exp_increasing|right; now rewrite X].
      - assert (Jc : cfg f hi = zip Nat.max x y /\ cfg f lo = zip Nat.min x y).
        { rewrite <- Ex, <- Ey. unfold cfg. rewrite !zip_map. split; apply map_ext_in; intros k Hk; apply in_seq in Hk; apply J; lia. }
        destruct Jc as [Jh Jl]. apply Rmult_le_compat; [left; apply W|left; apply W| |].
        + unfold F. apply rsum_member; [|intros; left; apply W]. apply filter_In. split; [exact H1|]. now apply leqb_iff.
        + unfold F. apply rsum_member; [|intros; left; apply W]. apply filter_In. split; [exact H2|]. now apply leqb_iff. }
    assert (L : (ln (Z v s) + ln (Z v' t) <= ln (Z v' s) + ln (Z v t))%R).
    { rewrite <- !ln_mult by (apply Zp; assumption). destruct Q as [Q|Q]; [left; apply ln_increasing; [apply Rmult_lt_0_compat; apply Zp; assumption|exact Q]|right; now rewrite Q]. }
    apply (Rmult_le_compat_l T) in L; [lra|lra].
  Qed.
  (** ** One step *)
  Lemma step_var m m' ev ev' : (forall f u, f < length fs -> u < arity fs f -> favours (snd (var_at fs f u)) (ev (var_at fs f u)) (ev' (var_at fs f u))) ->
    msgs_favour fs m m' -> msgs_favour fs (var_to_fac fs ev m) (var_to_fac fs ev' m').
  Proof.
    intros He Hm f u Hf Hu. unfold var_to_fac. apply favours_plus; [now apply He|].
    apply (favours_sum _ (fun fu => m (fst fu) (snd fu)) (fun fu => m' (fst fu) (snd fu))). intros [g j] Hi. apply filter_In in Hi. destruct Hi as [Hi _].
    apply In_slots_of in Hi. destruct Hi as [Hg [Hj <-]]. now apply Hm.
  Qed.
  Lemma damp_favour d m m' k k' : (0 <= d <= 1)%R -> msgs_favour fs m m' -> msgs_favour fs k k' -> msgs_favour fs (damp d m k) (damp d m' k').
  Proof.
    intros Hd Hm Hk f u Hf Hu s t Hst Hs. unfold damp. specialize (Hm f u Hf Hu s t Hst Hs). specialize (Hk f u Hf Hu s t Hst Hs).
    apply (Rmult_le_compat_l d) in Hm; [|lra]. apply (Rmult_le_compat_l (1 - d)) in Hk; [|lra]. lra.
  Qed.
  Lemma normal_two m f u : snd (var_at fs f u) = 2 -> 
    (normal fs m f u 1%nat - normal fs m f u 0%nat = Rmax (-1000) (Rmin 1000 (m f u 1%nat - m f u 0%nat)))%R.
  Proof.
    intros E. unfold normal. rewrite E. cbn [seq map]. unfold rmaxs, rmax. cbn [fold_right].
    unfold Rmax, Rmin. repeat destruct (Rle_dec _ _); lra.
  Qed.
  Lemma favours_two h h' : favours 2 h h' <-> (h 1%nat - h 0%nat <= h' 1%nat - h' 0%nat)%R.
  Proof. split; [intros H; apply H; lia|]. intros H s t Hst Hs. destruct s as [|[|]]; [| |lia]; destruct t as [|[|]]; try lia; lra. Qed.
  Lemma normal_favour m m' : binary fs -> msgs_favour fs m m' -> msgs_favour fs (normal fs m) (normal fs m').
  Proof.
    intros Hb H f u Hf Hu. pose proof (Hb f u Hf Hu) as E. specialize (H f u Hf Hu). rewrite E in *. apply favours_two. apply (proj1 (favours_two _ _)) in H. rewrite !normal_two by exact E.
    apply Rle_max_compat_l. apply Rle_min_compat_l. exact H.
  Qed.
  Lemma normal_favour_inside m m' : inside fs (normal fs m) -> inside fs (normal fs m') -> msgs_favour fs m m' -> msgs_favour fs (normal fs m) (normal fs m').
  Proof.
    intros U U' H f u Hf Hu s t Hst Hs.
    assert (E : forall z k, k < snd (var_at fs f u) -> inside fs (normal fs z) -> normal fs z f u k = (z f u k - rmaxs (map (z f u) (seq 0 (snd (var_at fs f u)))))%R).
    { intros z k Hk I. specialize (I f u k Hf Hu Hk). unfold normal in *. unfold Rmax in *. destruct (Rle_dec _ _); [reflexivity|lra]. }
    rewrite !E by (auto; lia). specialize (H f u Hf Hu s t Hst Hs). lra.
  Qed.
  Lemma fac_favour T v v' : (0 <= T)%R -> (T <> 0%R -> binary fs /\ distinct fs) -> msgs_favour fs v v' -> msgs_favour fs (fac_to_var fs pots T v) (fac_to_var fs pots T v').
  Proof.
    intros HT H2 Hv. unfold fac_to_var. destruct (Req_EM_T T 0) as [E|E]; [now apply max_favour|]. destruct (H2 E). apply soft_favour; auto. lra.
  Qed.
End Attract.
