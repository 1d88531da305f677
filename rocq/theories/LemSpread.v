(** * Small inputs on acyclic graphs are never clipped (towards C42). *)
From Verif Require Import NumPy Lists VGroup FGraph BPState BP SpecVGroup SpecFGraph SpecFactor SpecWiring SpecState SpecBP SpecText SpecBeliefs SpecTree.
From Verif Require Import LemVGroup LemFGraph LemState LemNum LemNorm LemVtoF LemText LemRun LemBeliefs LemShift LemPerm LemTree LemExact.
From Coq Require Import Reals Lra Lia Permutation.
Local Open Scope nat_scope.

Lemma NoDup_app_intro {X} (l1 l2 : list X) : NoDup l1 -> NoDup l2 -> (forall x, In x l1 -> In x l2 -> False) -> NoDup (l1 ++ l2).
Proof.
  induction 1 as [|x l1 Hx H1 IH]; intros H2 Hd; [exact H2|]. cbn [app]. constructor.
  - intros Hi. apply in_app_or in Hi. destruct Hi as [Hi|Hi]; [contradiction|]. apply (Hd x); [now left|exact Hi].
  - apply IH; [exact H2|]. intros y Hy. apply Hd. now right.
Qed.
Lemma NoDup_flat_map {X Y} (g : X -> list Y) l : NoDup l -> (forall x, In x l -> NoDup (g x)) ->
  (forall x x' y, In x l -> In x' l -> x <> x' -> In y (g x) -> In y (g x') -> False) -> NoDup (flat_map g l).
Proof.
  induction 1 as [|x l Hx Hnd IH]; intros Hg Hd; [constructor|]. cbn [flat_map]. apply NoDup_app_intro.
  - apply Hg. now left.
  - apply IH; [intros y Hy; apply Hg; now right|]. intros y y' z Hy Hy'. apply Hd; now right.
  - intros y Hy Hy'. apply in_flat_map in Hy'. destruct Hy' as [x' [Hx' Hy']]. apply (Hd x x' y); auto; [now left|now right|intros ->; contradiction].
Qed.

(** ** Paths are unique *)
Section Unique.
  Context {A : Type} (fs : list (sfactor A)).
  Hypothesis Hac : acyclic fs.
  Let act := seq 0 (length fs).

  Lemma rev_join l b : walk fs act l b -> forall M b', walk fs act M b' ->
    svar fs (first_slot l b) = svar fs (first_slot M b') -> first_slot l b <> first_slot M b' ->
    exists L, walk fs act L b' /\ svar fs (first_slot L b') = svar fs b /\ first_slot L b' <> b.
  Proof.
    induction 1 as [b Hb|p l b Hs Hv Ho Hn Hw IH]; intros M b' HM E Hne.
    - exists M. cbn [first_slot] in *. auto.
    - cbn [first_slot] in *. destruct (IH (Pass (sp_factor p) (sp_out p) (sp_in p) :: M) b') as [L HL].
      + destruct Hv as [V1 [V2 [V3 V4]]]. constructor; cbn [sp_factor sp_in sp_out].
        * split; [apply Hs|exact V3].
        * repeat split; cbn; auto.
        * unfold out_var. cbn [sp_factor sp_out]. rewrite <- E. reflexivity.
        * exact Hne.
        * exact HM.
      + cbn [first_slot sp_factor sp_in]. rewrite <- Ho. reflexivity.
      + cbn [first_slot sp_factor sp_in]. auto.
      + exists L. exact HL.
  Qed.
  Lemma no_loop L b b' : walk fs act L b' -> svar fs (first_slot L b') = svar fs b -> first_slot L b' <> b -> fst b = fst b' ->
    slot_ok fs act b -> False.
  Proof.
    intros HL E Hne Ef Hb. destruct (walk_simple fs act Hac L b' HL) as [S1 S2].
    assert (Hb' : slot_ok fs act b') by (clear - HL; induction HL; assumption).
    destruct (Nat.eq_dec (snd b) (snd b')) as [Es|Es].
    - assert (b = b') by (destruct b, b'; cbn in *; congruence). subst b'. destruct L as [|p L]; [now apply Hne|].
      cbn [first_slot map app] in *. apply NoDup_cons_iff in S2. apply (proj1 S2). apply in_or_app. right. left. symmetry. exact E.
    - apply (close_cycle fs act Hac L b' (Pass (fst b') (snd b') (snd b))).
      + exact HL.
      + destruct Hb as [Hb1 Hb2], Hb' as [Hb3 Hb4]. unfold act in *. apply in_seq in Hb1, Hb3. repeat split; cbn; auto; [lia|now rewrite <- Ef].
      + unfold out_var. cbn. rewrite E. unfold svar. now rewrite Ef.
      + reflexivity.
      + cbn. apply NoDup_remove_2 in S1. now rewrite app_nil_r in S1.
      + now apply NoDup_app_l in S1.
      + exact S2.
  Qed.

  (** The factors whose potentials reach a message within [j] further iterations. *)
  Definition below (q : nat * nat) : list (nat * (nat * nat)) :=
    flat_map (fun u => map (pair u) (filter (fun p => negb (slot_eqb p (fst q, u))) (slots_of fs (var_at fs (fst q) u))))
      (filter (fun u => negb (u =? snd q)) (seq 0 (arity fs (fst q)))).
  Fixpoint reach (j : nat) (q : nat * nat) : list nat :=
    match j with
    | O => [fst q]
    | S i => fst q :: flat_map (fun up => reach i (snd up)) (below q)
    end.
  Lemma In_below q u p : In (u, p) (below q) <-> u < arity fs (fst q) /\ u <> snd q /\ slot_ok fs act p /\ svar fs p = var_at fs (fst q) u /\ p <> (fst q, u).
  Proof.
    unfold below. rewrite in_flat_map. split.
    - intros [w [Hw Hp]]. apply in_map_iff in Hp. destruct Hp as [p' [E Hp]]. injection E as -> ->. apply filter_In in Hw, Hp.
      destruct Hw as [Hw Hw2], Hp as [Hp Hp2]. apply in_seq in Hw. destruct p as [g w]. apply In_slots_of in Hp. destruct Hp as [P1 [P2 P3]].
      split; [lia|]. split; [destruct (Nat.eqb_spec u (snd q)); [discriminate|assumption]|]. split; [split; [apply in_seq; cbn; lia|exact P2]|]. split; [exact P3|].
      intros F. rewrite (proj2 (slot_eqb_eq _ _) F) in Hp2. discriminate.
    - intros [H1 [H2 [[H3 H4] [H5 H6]]]]. exists u. split.
      + apply filter_In. split; [apply in_seq; lia|]. now destruct (Nat.eqb_spec u (snd q)).
      + apply in_map, filter_In. split; [destruct p as [g w]; apply In_slots_of; unfold act in H3; apply in_seq in H3; cbn in *; repeat split; auto; lia|].
        destruct (slot_eqb p (fst q, u)) eqn:F; [apply slot_eqb_eq in F; contradiction|reflexivity].
  Qed.
  Lemma NoDup_below q : NoDup (below q).
  Proof.
    unfold below. apply NoDup_flat_map.
    - apply NoDup_filter, seq_NoDup.
    - intros u _. apply NoDup_map_on; [apply NoDup_filter; unfold slots_of; apply NoDup_filter, NoDup_slots|]. intros x y _ _ E. now injection E.
    - intros u u' [w p] _ _ Hne H1 H2. apply in_map_iff in H1, H2. destruct H1 as [p1 [E1 _]], H2 as [p2 [E2 _]]. congruence.
  Qed.
  Lemma reach_walk j q h : slot_ok fs act q -> In h (reach j q) -> exists l b, walk fs act l b /\ first_slot l b = q /\ fst b = h.
  Proof.
    revert q. induction j as [|j IH]; intros q Hq Hi; cbn [reach] in Hi.
    - destruct Hi as [<-|[]]. exists [], q. split; [now constructor|]. split; reflexivity.
    - destruct Hi as [<-|Hi]; [exists [], q; split; [now constructor|]; split; reflexivity|].
      apply in_flat_map in Hi. destruct Hi as [[u p] [Hp Hi]]. cbn [snd] in Hi. apply In_below in Hp. destruct Hp as [P1 [P2 [P3 [P4 P5]]]].
      destruct (IH p P3 Hi) as [l [b [Hw [E Eb]]]]. exists (Pass (fst q) (snd q) u :: l), b. split; [|split; [cbn; now destruct q|exact Eb]].
      destruct Hq as [Q1 Q2]. pose proof Q1 as Q3. unfold act in Q3. apply in_seq in Q3. constructor; cbn [sp_factor sp_in sp_out].
      + now split.
      + repeat split; cbn; auto; lia.
      + rewrite E, P4. reflexivity.
      + rewrite E. auto.
      + exact Hw.
  Qed.
  Lemma reach_lt j q h : slot_ok fs act q -> In h (reach j q) -> h < length fs.
  Proof.
    intros Hq Hi. destruct (reach_walk j q h Hq Hi) as [l [b [Hw [_ <-]]]]. assert (Hb : slot_ok fs act b) by (clear - Hw; induction Hw; assumption).
    destruct Hb as [Hb _]. unfold act in Hb. apply in_seq in Hb. lia.
  Qed.
  Lemma reach_nodup j q : slot_ok fs act q -> NoDup (reach j q).
  Proof.
    revert q. induction j as [|j IH]; intros q Hq; cbn [reach]; [repeat constructor; intros []|].
    assert (Hsub : forall u p, In (u, p) (below q) -> slot_ok fs act p) by (intros u p Hp; apply In_below in Hp; apply Hp).
    constructor.
    - intros Hi. apply in_flat_map in Hi. destruct Hi as [[u p] [Hp Hi]]. cbn [snd] in Hi. destruct (reach_walk j p _ (Hsub u p Hp) Hi) as [l [b [Hw [E Eb]]]].
      apply In_below in Hp. destruct Hp as [P1 [P2 [P3 [P4 P5]]]]. destruct Hq as [Q1 Q2]. pose proof Q1 as Q3. unfold act in Q3. apply in_seq in Q3.
      assert (W : walk fs act (Pass (fst q) (snd q) u :: l) b).
      { constructor; cbn [sp_factor sp_in sp_out]; [now split|repeat split; cbn; auto; lia|rewrite E, P4; reflexivity|rewrite E; auto|exact Hw]. }
      apply (walk_simple fs act Hac) in W. destruct W as [W _]. cbn [map app] in W. apply NoDup_cons_iff in W. apply (proj1 W). apply in_or_app. right. left. exact Eb.
    - apply NoDup_flat_map; [apply NoDup_below|intros [u p] Hp; cbn [snd]; apply IH, (Hsub u p Hp)|].
      intros [u p] [u' p'] h Hp Hp' Hne H1 H2. cbn [snd] in *.
      destruct (reach_walk j p h (Hsub u p Hp) H1) as [l [b [Hw [E Eb]]]]. destruct (reach_walk j p' h (Hsub u' p' Hp') H2) as [l' [b' [Hw' [E' Eb']]]].
      apply In_below in Hp, Hp'. destruct Hp as [P1 [P2 [P3 [P4 P5]]]], Hp' as [P1' [P2' [P3' [P4' P5']]]].
      assert (J : exists L, walk fs act L b' /\ svar fs (first_slot L b') = svar fs b /\ first_slot L b' <> b).
      { destruct (Nat.eq_dec u u') as [Eu|Hu].
        - subst u'. apply (rev_join l b Hw l' b' Hw'); rewrite E, E'; [congruence|]. intros F. apply Hne. now rewrite F.
        - apply (rev_join l b Hw (Pass (fst q) u u' :: l') b').
          + destruct Hq as [Q1 Q2]. pose proof Q1 as Q3. unfold act in Q3. apply in_seq in Q3.
            constructor; cbn [sp_factor sp_in sp_out]; [now split|repeat split; cbn; auto; lia|rewrite E', P4'; reflexivity|rewrite E'; auto|exact Hw'].
          + rewrite E. exact P4.
          + rewrite E. cbn. exact P5. }
      destruct J as [L [J1 [J2 J3]]]. apply (no_loop L b b' J1 J2 J3); [congruence|]. clear - Hw. induction Hw; assumption.
  Qed.
End Unique.

(** ** Spread of messages *)
Section Spread.
  Context {A : Type} (fs : list (sfactor A)) (pots : nat -> nat -> R).
  Hypothesis Hcfg : configs_ok fs.
  Hypothesis Hcov : covered fs.
  Hypothesis Hac : acyclic fs.
  Context (T : R) (ev : variable -> nat -> R) (m0 : msg).
  Context (P B M : R) (N : nat).
  Hypothesis HT : (0 <= T)%R.
  Hypothesis HP0 : (0 <= P)%R.
  Hypothesis HB0 : (0 <= B)%R.
  Hypothesis HM0 : (0 <= M)%R.
  Hypothesis HN0 : 0 < N.
  Hypothesis HP : forall f c c', f < length fs -> c < length (sf_configs (factor_at fs f)) -> c' < length (sf_configs (factor_at fs f)) -> (pots f c - pots f c' <= P)%R.
  Hypothesis HB : forall x s s', In x (sf_edges fs) -> s < snd x -> s' < snd x -> (ev x s - ev x s' <= B)%R.
  Hypothesis HM : forall f u s s', f < length fs -> u < arity fs f -> s < snd (var_at fs f u) -> s' < snd (var_at fs f u) -> (m0 f u s - m0 f u s' <= M)%R.
  Hypothesis HN : T <> 0%R -> forall f, f < length fs -> length (sf_configs (factor_at fs f)) <= N.
  Hypothesis Hpos : forall f u, f < length fs -> u < arity fs f -> 0 < snd (var_at fs f u).

  Definition spread (m : msg) (f u : nat) (w : R) : Prop :=
    forall s s', s < snd (var_at fs f u) -> s' < snd (var_at fs f u) -> (m f u s - m f u s' <= w)%R.
  Definition weight (f : nat) : R := (P + T * ln (INR N) + INR (arity fs f) * (B + M))%R.
  Let act := seq 0 (length fs).
  Let bp := text_bp fs pots T 0%R ev m0.

  Lemma lnN : (0 <= ln (INR N))%R.
  Proof.
    destruct (Req_dec (INR N) 1) as [E|E]; [rewrite E, ln_1; lra|]. assert (1 <= INR N)%R by (replace 1%R with (INR 1) by reflexivity; apply le_INR; lia).
    rewrite <- ln_1. left. apply ln_increasing; lra.
  Qed.
  Lemma TlnN : (0 <= T * ln (INR N))%R.
  Proof. pose proof lnN. now apply Rmult_le_pos. Qed.
  Lemma weight_nonneg f : (0 <= weight f)%R.
  Proof. unfold weight. pose proof TlnN. pose proof (pos_INR (arity fs f)). assert (0 <= INR (arity fs f) * (B + M))%R by (apply Rmult_le_pos; lra). lra. Qed.
  Lemma spread_normal m f u w : f < length fs -> u < arity fs f -> (0 <= w)%R -> spread m f u w -> spread (normal fs m) f u w.
  Proof.
    intros Hf Hu Hw H s s' Hs Hs'. specialize (H s s' Hs Hs'). unfold normal. set (k := rmaxs _). unfold Rmax. destruct (Rle_dec _ _), (Rle_dec _ _); lra.
  Qed.
  Lemma rsum_bound {X} (h : X -> R) (g : X -> R) l : (forall x, In x l -> (h x <= g x)%R) -> (rsum (map h l) <= rsum (map g l))%R.
  Proof. apply rsum_le. Qed.

  Lemma rsum_pos_ge {X} (l : list X) h x : In x l -> (forall y, In y l -> (0 <= h y)%R) -> (h x <= rsum (map h l))%R.
  Proof.
    induction l as [|y l IH]; intros Hx Hh; [destruct Hx|]. cbn [map]. rewrite rsum_cons.
    assert (0 <= rsum (map h l))%R. { apply rsum_nonneg. intros z Hz. apply in_map_iff in Hz. destruct Hz as [z' [<- Hz]]. apply Hh. now right. }
    destruct Hx as [->|Hx]; [lra|]. assert (h x <= rsum (map h l))%R by (apply IH; [exact Hx|intros z Hz; apply Hh; now right]). pose proof (Hh y (or_introl eq_refl)). lra.
  Qed.
  (** A factor's messages spread by its potentials and what it receives. *)
  Lemma spread_fac v f u (w : nat -> R) : f < length fs -> u < arity fs f ->
    (forall u', u' < arity fs f -> u' <> u -> spread v f u' (w u')) ->
    spread (fac_to_var fs pots T v) f u (P + T * ln (INR N) + rsum (map w (filter (fun u' => negb (u' =? u)) (seq 0 (arity fs f)))))%R.
  Proof.
    intros Hf Hu Hv s s' Hs Hs'. set (W := rsum (map w _)).
    assert (D : forall c c', In c (choices fs f u s) -> In c' (choices fs f u s') -> (score_but fs pots v f c u - score_but fs pots v f c' u <= P + W)%R).
    { intros c c' Hc Hc'. apply choice_iff in Hc, Hc'. destruct Hc as [Hc _], Hc' as [Hc' _]. unfold score_but. pose proof (HP f c c' Hf Hc Hc') as H1.
      set (l := filter _ _). assert (H2 : (rsum (map (fun u' => v f u' (config_at_slot fs f c u')) l) - rsum (map (fun u' => v f u' (config_at_slot fs f c' u')) l) <= W)%R); [|lra].
      rewrite <- rsum_minus. unfold W. fold l. apply rsum_le. intros u' Hu'. unfold l in Hu'. apply filter_In in Hu'. destruct Hu' as [Hu' Hne]. apply in_seq in Hu'.
      destruct (Nat.eqb_spec u' u) as [|Hn]; [discriminate|]. apply (Hv u'); [lia|exact Hn| |]; apply (config_ok fs Hcfg); auto; lia. }
    pose proof (Hcov f u s Hf Hu Hs) as Ne. pose proof (Hcov f u s' Hf Hu Hs') as Ne'. pose proof TlnN as HL.
    unfold fac_to_var. destruct (Req_EM_T T 0) as [ET|ET].
    - unfold fac_to_var_max.
      assert (I1 : In (rmaxs (map (fun c => score_but fs pots v f c u) (choices fs f u s))) (map (fun c => score_but fs pots v f c u) (choices fs f u s))).
      { apply rmaxs_In. destruct (choices fs f u s); [contradiction|discriminate]. }
      apply in_map_iff in I1. destruct I1 as [c [Ec Hc]]. rewrite <- Ec. destruct (choices fs f u s') as [|c' l'] eqn:El; [contradiction|].
      assert (Hc' : In c' (c' :: l')) by now left. pose proof (D c c' Hc Hc') as H1.
      assert (H2 : (score_but fs pots v f c' u <= rmaxs (map (fun c => score_but fs pots v f c u) (c' :: l')))%R) by (apply rmaxs_ub; now left). lra.
    - unfold fac_to_var_soft. assert (HT' : (0 < T)%R) by lra.
      set (S0 := rsum (map (fun c => exp (score_but fs pots v f c u / T)) (choices fs f u s))).
      set (S1 := rsum (map (fun c => exp (score_but fs pots v f c u / T)) (choices fs f u s'))).
      destruct (choices fs f u s') as [|c' l'] eqn:El; [contradiction|]. assert (Hc' : In c' (c' :: l')) by now left.
      set (e := exp (score_but fs pots v f c' u / T)). assert (He : (0 < e)%R) by apply exp_pos.
      assert (L1 : (e <= S1)%R). { unfold S1, e. apply (rsum_pos_ge (c' :: l') (fun c => exp (score_but fs pots v f c u / T)) c' Hc'). intros y _. left. apply exp_pos. }
      assert (L2 : (S0 <= INR N * (e * exp ((P + W) / T)))%R).
      { unfold S0. eapply Rle_trans; [apply rsum_le with (g := fun _ => (e * exp ((P + W) / T))%R)|].
        - intros c Hc. pose proof (D c c' Hc Hc') as H1. unfold e. rewrite <- exp_plus.
          assert (Hle : (score_but fs pots v f c u / T <= score_but fs pots v f c' u / T + (P + W) / T)%R).
          { rewrite <- Rdiv_plus_distr. apply Rmult_le_compat_r; [left; now apply Rinv_0_lt_compat|lra]. }
          destruct Hle as [Hlt|Heq]; [left; now apply exp_increasing|right; now rewrite Heq].
        - rewrite rsum_const. apply Rmult_le_compat_r; [apply Rmult_le_pos; left; [exact He|apply exp_pos]|]. apply le_INR.
          unfold choices. eapply Nat.le_trans; [apply filter_length_le|]. rewrite seq_length. now apply HN. }
      assert (P0 : (0 < S0)%R).
      { unfold S0. apply rsum_pos; [destruct (choices fs f u s); [contradiction|discriminate]|]. intros y Hy. apply in_map_iff in Hy. destruct Hy as [z [<- _]]. apply exp_pos. }
      assert (HNR : (0 < INR N)%R) by (apply lt_0_INR; exact HN0).
      assert (G : (ln S0 - ln S1 <= ln (INR N) + (P + W) / T)%R).
      { assert (G1 : (ln S0 <= ln (INR N * (e * exp ((P + W) / T))))%R) by (destruct L2 as [L2|L2]; [left; now apply ln_increasing|right; now rewrite L2]).
        rewrite ln_mult, ln_mult, ln_exp in G1; [|exact He|apply exp_pos|exact HNR|apply Rmult_lt_0_compat; [exact He|apply exp_pos]].
        assert (G2 : (ln e <= ln S1)%R) by (destruct L1 as [L1|L1]; [left; now apply ln_increasing|right; now rewrite L1]). lra. }
      replace (T * ln S0 - T * ln S1)%R with (T * (ln S0 - ln S1))%R by ring.
      replace (P + T * ln (INR N) + W)%R with (T * (ln (INR N) + (P + W) / T))%R by (field; exact ET). apply Rmult_le_compat_l; [exact HT|exact G].
  Qed.
  Lemma spread_var m f u (w : nat * nat -> R) : f < length fs -> u < arity fs f ->
    (forall q, slot_ok fs act q -> svar fs q = var_at fs f u -> q <> (f, u) -> spread m (fst q) (snd q) (w q)) ->
    spread (var_to_fac fs ev m) f u (B + rsum (map w (filter (fun p => negb (slot_eqb p (f, u))) (slots_of fs (var_at fs f u)))))%R.
  Proof.
    intros Hf Hu H s s' Hs Hs'. unfold var_to_fac. set (l := filter _ _). pose proof (HB (var_at fs f u) s s' (var_in_edges fs f u Hf Hu) Hs Hs') as H1.
    assert (H2 : (rsum (map (fun fu => m (fst fu) (snd fu) s) l) - rsum (map (fun fu => m (fst fu) (snd fu) s') l) <= rsum (map w l))%R); [|lra].
    rewrite <- rsum_minus. apply rsum_le. intros [g x] Hq. unfold l in Hq. apply filter_In in Hq. destruct Hq as [Hq Hne]. apply In_slots_of in Hq. destruct Hq as [Q1 [Q2 Q3]].
    apply (H (g, x)); [split; [apply in_seq; cbn; lia|exact Q2]|exact Q3| |cbn [fst snd]; now rewrite Q3|cbn [fst snd]; now rewrite Q3].
    intros F. rewrite (proj2 (slot_eqb_eq _ _) F) in Hne. discriminate.
  Qed.
  Lemma spread_new i f u : f < length fs -> u < arity fs f ->
    (forall q, slot_ok fs act q -> spread (bp i) (fst q) (snd q) (rsum (map weight (reach fs i q)))) ->
    spread (fac_to_var fs pots T (var_to_fac fs ev (bp i))) f u (rsum (map weight (reach fs (S i) (f, u)))).
  Proof.
    intros Hf Hu H.
    pose proof (spread_fac (var_to_fac fs ev (bp i)) f u
      (fun u' => B + rsum (map (fun q => rsum (map weight (reach fs i q))) (filter (fun p => negb (slot_eqb p (f, u'))) (slots_of fs (var_at fs f u')))))%R Hf Hu) as S1.
    intros s s' Hs Hs'. eapply Rle_trans; [apply S1; [|exact Hs|exact Hs']|].
    - intros u' Hu' Hne. apply spread_var; auto.
    - cbn [reach fst]. cbn [map]. rewrite rsum_cons, rsum_flat_map. unfold below. cbn [fst snd]. rewrite rsum_flat_map.
      set (l := filter (fun u0 => negb (u0 =? u)) (seq 0 (arity fs f))). rewrite rsum_plus, rsum_const.
      assert (E : rsum (map (fun x => rsum (map (fun up => rsum (map weight (reach fs i (snd up)))) (map (pair x) (filter (fun p => negb (slot_eqb p (f, x))) (slots_of fs (var_at fs f x)))))) l)
        = rsum (map (fun u' => rsum (map (fun q => rsum (map weight (reach fs i q))) (filter (fun p => negb (slot_eqb p (f, u'))) (slots_of fs (var_at fs f u'))))) l)).
      { apply rsum_ext. intros x _. now rewrite map_map. }
      rewrite E. assert (Hl : (INR (length l) * B <= INR (arity fs f) * (B + M))%R).
      { assert (INR (length l) <= INR (arity fs f))%R by (apply le_INR; unfold l; eapply Nat.le_trans; [apply filter_length_le|now rewrite seq_length]).
        apply Rmult_le_compat; [apply pos_INR|exact HB0|assumption|lra]. }
      unfold weight at 2. lra.
  Qed.
  Lemma spread_bp i q : slot_ok fs act q -> spread (bp i) (fst q) (snd q) (rsum (map weight (reach fs i q))).
  Proof.
    assert (Hsum : forall j p, (0 <= rsum (map weight (reach fs j p)))%R).
    { intros j p. apply rsum_nonneg. intros x Hx. apply in_map_iff in Hx. destruct Hx as [h [<- _]]. apply weight_nonneg. }
    revert q. induction i as [|i IH]; intros [f u] [Hf Hu]; cbn [fst snd] in *; unfold act in Hf; apply in_seq in Hf.
    - change (bp 0) with (normal fs m0). apply spread_normal; [lia|exact Hu|apply (Hsum 0)|]. intros s s' Hs Hs'. cbn [reach fst map]. rewrite rsum_cons, rsum_nil.
      pose proof (HM f u s s' ltac:(lia) Hu Hs Hs'). unfold weight. pose proof TlnN.
      assert (1 * (B + M) <= INR (arity fs f) * (B + M))%R by (apply Rmult_le_compat_r; [lra|]; replace 1%R with (INR 1) by reflexivity; apply le_INR; lia). lra.
    - change (bp (S i)) with (text_step fs pots T 0%R ev (bp i)). unfold text_step. apply spread_normal; [lia|exact Hu|apply (Hsum (S i))|].
      intros s s' Hs Hs'. unfold damp. pose proof (spread_new i f u ltac:(lia) Hu IH s s' Hs Hs'). lra.
  Qed.
  Lemma sum_incl l l' : NoDup l -> incl l l' -> NoDup l' -> (rsum (map weight l) <= rsum (map weight l'))%R.
  Proof.
    revert l'. induction l as [|x l IH]; intros l' Hnd Hi Hnd'.
    - cbn [map]. rewrite rsum_nil. apply rsum_nonneg. intros y Hy. apply in_map_iff in Hy. destruct Hy as [h [<- _]]. apply weight_nonneg.
    - apply NoDup_cons_iff in Hnd. destruct Hnd as [Hx Hnd]. assert (Hin : In x l') by (apply Hi; now left). apply in_split in Hin. destruct Hin as [a [b ->]].
      rewrite (rsum_perm _ _ (Permutation_map weight (Permutation_sym (Permutation_middle a b x)))). cbn [map]. rewrite !rsum_cons.
      assert (rsum (map weight l) <= rsum (map weight (a ++ b)))%R; [|lra]. apply IH; [exact Hnd| |now apply NoDup_remove_1 in Hnd'].
      intros y Hy. assert (Hy' : In y (a ++ x :: b)) by (apply Hi; now right). apply in_or_app. apply in_app_or in Hy'. cbn in Hy'.
      destruct Hy' as [H|[E|H]]; [now left| |now right]. subst y. contradiction.
  Qed.
  Lemma weight_total : rsum (map weight act) = (INR (length fs) * (P + T * ln (INR N)) + INR (length (slots fs)) * (B + M))%R.
  Proof.
    unfold weight. rewrite rsum_plus, rsum_const. unfold act at 1. rewrite seq_length. f_equal.
    unfold slots. fold act. induction act as [|f l IH]; [cbn; lra|]. cbn [map flat_map]. rewrite rsum_cons, app_length, map_length, seq_length, plus_INR, IH. lra.
  Qed.
  Lemma never_clipped : (INR (length fs) * (P + T * ln (INR N)) + INR (length (slots fs)) * (B + M) <= 1000)%R ->
    forall i, unclipped fs (fac_to_var fs pots T (var_to_fac fs ev (bp i))).
  Proof.
    intros HW i f u s Hf Hu Hs. set (F := fac_to_var fs pots T (var_to_fac fs ev (bp i))).
    assert (Hok : slot_ok fs act (f, u)) by (split; [apply in_seq; cbn; lia|exact Hu]).
    assert (Hi : In (rmaxs (map (F f u) (seq 0 (snd (var_at fs f u))))) (map (F f u) (seq 0 (snd (var_at fs f u))))).
    { apply rmaxs_In. specialize (Hpos f u Hf Hu). destruct (snd (var_at fs f u)); [lia|discriminate]. }
    apply in_map_iff in Hi. destruct Hi as [t [Et Ht]]. apply in_seq in Ht. rewrite <- Et.
    pose proof (spread_new i f u Hf Hu (spread_bp i) t s ltac:(lia) Hs) as H1. fold F in H1.
    assert (H2 : (rsum (map weight (reach fs (S i) (f, u))) <= rsum (map weight act))%R).
    { apply sum_incl; [now apply reach_nodup| |apply seq_NoDup]. intros h Hh. apply in_seq. apply reach_lt in Hh; [lia|exact Hok]. }
    rewrite weight_total in H2. lra.
  Qed.
End Spread.

Lemma small_lemma {A} (fs : list (sfactor A)) pots T ev m P B M N :
  acyclic fs -> configs_ok fs -> covered fs -> (forall f u, f < length fs -> u < arity fs f -> 0 < snd (var_at fs f u)) ->
  (0 <= T)%R -> small fs T pots ev m P B M N ->
  forall i, unclipped fs (fac_to_var fs pots T (var_to_fac fs ev (text_bp fs pots T 0 ev m i))).
Proof.
  intros Hac Hcfg Hcov Hpos HT [[P0 [B0 M0]] [N0 [HP [HB [HM [HN HW]]]]]] i. now apply (never_clipped fs pots Hcfg Hcov Hac T ev m P B M N).
Qed.

(** ** The code *)
Section Code.
  Context (vgs : list vgroup) (g : fgraph R) (T : R) (c : bp_ctx R).
  Hypothesis Hok : groups_ok vgs.
  Hypothesis Hr : reachable vgs g.
  Hypothesis Hwf : wf_groups (gr_groups g).
  Hypothesis Hbp : bp_of g T c.
  Context (a : bp_arrays R).
  Hypothesis Ha : arrays_of c a.
  Let fs := graph_factors 0%R (gr_groups g).
  Let pots := graph_pots (gr_groups g) (ba_log_potentials a).
  Let ne := length (enum_factors (gr_groups g)).
  Let lens := map snd (sf_edges fs).
  Let ev := read_ev (gr_vars_to_starts g) (ba_evidence a).
  Let text := text_bp fs pots T 0 ev (read_msgs fs (ba_ftov_msgs a)).

  Lemma C42_converges_lemma : acyclic fs -> supported lens ->
    forall n n', length fs <= n <= n' ->
    (forall i, i < n' -> unclipped fs (fac_to_var fs pots T (var_to_fac fs ev (text i)))) ->
    (forall i, i <= n' -> above_floor lens (unnormalised c a 0 i)) ->
    (forall i, i < n' -> in_range fs pots ne T (var_to_fac fs ev (text i))) ->
    ba_ftov_msgs (run_bp c a n' 0%R) = ba_ftov_msgs (run_bp c a n 0%R).
  Proof.
    intros Hac Hsup n n' Hn Hun Hfl Hir. destruct (Nat.eq_dec n n') as [->|Hne]; [reflexivity|]. apply (read_ext fs).
    - apply (run_length vgs g T c Hok Hr Hwf Hbp a Ha).
    - apply (run_length vgs g T c Hok Hr Hwf Hbp a Ha).
    - eapply msg_eq_trans; [apply (C39_lemma vgs g T c Hok Hr Hwf Hbp a Ha 0%R n' Hsup Hfl Hir)|].
      eapply msg_eq_trans; [|apply msg_eq_sym, (C39_lemma vgs g T c Hok Hr Hwf Hbp a Ha 0%R n Hsup); intros i Hi; [apply Hfl|apply Hir]; lia].
      apply C42_stable_lemma; auto.
      + now apply graph_configs_ok.
      + apply (in_range_covered g T Hwf a _ (Hir 0 ltac:(lia))).
      + apply positive_states. exact Hsup.
  Qed.

  Context (B P : R) (D K : nat).
  Hypothesis Hmod : moderate fs pots ne ev B P D K.
  Hypothesis HT : (0 <= T)%R.
  Hypothesis Hsup : supported lens.
  Hypothesis Hfl : above_floor lens (ba_ftov_msgs a).
  Hypothesis Hac : acyclic fs.
  Context (P' B' M' : R) (N' : nat).
  Hypothesis Hsm : small fs T pots ev (read_msgs fs (ba_ftov_msgs a)) P' B' M' N'.
  Lemma small_given : (forall i, unclipped fs (fac_to_var fs pots T (var_to_fac fs ev (text i)))) /\
    (forall i, above_floor lens (unnormalised c a 0 i)) /\ (forall i, in_range fs pots ne T (var_to_fac fs ev (text i))).
  Proof.
    assert (Hir : forall i, in_range fs pots ne T (var_to_fac fs ev (text i))) by (intros i; apply (in_range_text g T Hwf a B P D K Hmod)).
    split; [|split; [|exact Hir]].
    - apply (small_lemma fs pots T ev _ P' B' M' N' Hac); auto; [now apply graph_configs_ok|apply (in_range_covered g T Hwf a _ (Hir 0))|apply positive_states; exact Hsup].
    - intros i. apply (above_floor_run vgs g T c Hok Hr Hwf Hbp a Ha B P D K Hmod HT Hsup Hfl 0%R ltac:(lra) i). lia.
  Qed.
  Lemma C42_converges_small_lemma n : length fs <= n -> ba_ftov_msgs (run_bp c a n 0%R) = ba_ftov_msgs (run_bp c a (length fs) 0%R).
  Proof. intros Hn. destruct small_given as [G1 [G2 G3]]. apply C42_converges_lemma; auto. Qed.
End Code.

Lemma C42_small_lemma vgs (g : fgraph R) (c : bp_ctx R) : groups_ok vgs -> reachable vgs g -> wf_groups (gr_groups g) -> bp_of g 0%R c ->
  forall a, arrays_of c a ->
  let fs := graph_factors 0%R (gr_groups g) in
  let pots := graph_pots (gr_groups g) (ba_log_potentials a) in
  let ev := read_ev (gr_vars_to_starts g) (ba_evidence a) in
  let lens := map snd (sf_edges fs) in
  (forall gr k, In gr vgs -> In k (vg_num_states gr) -> 0 < k) ->
  acyclic fs -> (forall f, f < length fs -> 0 < arity fs f) ->
  forall B P D K P' B' M' N', moderate fs pots (length (enum_factors (gr_groups g))) ev B P D K ->
  small fs 0 pots ev (read_msgs fs (ba_ftov_msgs a)) P' B' M' N' ->
  supported lens -> above_floor lens (ba_ftov_msgs a) ->
  forall n, length fs <= n ->
  exists b, get_beliefs c (run_bp c a n 0%R) = Ok b /\ map fst b = vgs /\
    forall gr, In gr vgs -> exists d, dget vg_eqb gr b = Some d /\ per_state_shape gr d /\
      forall i x, nth_error (vg_variables gr) i = Some x -> exists (mm : nat -> R) (k : R),
        (forall s, s < snd x -> max_marginal fs pots ev (all_vars vgs) x s (mm s)) /\
        row gr d i = map (fun s => Fin (mm s + k)%R) (seq 0 (snd x)) ++ repeat NInf (state_axis gr i - snd x).
Proof.
  intros Hok Hr Hwf Hbp a Ha fs pots ev lens Hpos Hac Har B P D K P' B' M' N' Hm Hs Hsup Hfl n Hn.
  destruct (small_given vgs g 0%R c Hok Hr Hwf Hbp a Ha B P D K Hm (Rle_refl 0) Hsup Hfl Hac P' B' M' N' Hs) as [G1 [G2 G3]].
  apply (C42_beliefs_lemma vgs g c Hok Hr Hwf Hbp a Ha n Hpos Hac Har Hn); auto. intros i _. rewrite <- fac_to_var_0. apply G1.
Qed.
