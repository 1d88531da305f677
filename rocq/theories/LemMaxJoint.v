(** * Max-marginals of the configurations of a factor on acyclic graphs (towards C74). *)
From Verif Require Import NumPy Lists VGroup FGraph BPState BP SpecVGroup SpecFGraph SpecFactor SpecWiring SpecState SpecBP SpecText SpecBeliefs SpecTree SpecFix SpecMaxJoint.
From Verif Require Import LemVGroup LemFGraph LemState LemNum LemNorm LemVtoF LemText LemRun LemBeliefs LemShift LemPerm LemTree LemExact LemSpread LemFix.
From Coq Require Import Reals Lra Lia Permutation ClassicalFacts Classical.
Local Open Scope nat_scope.

Section Exact.
  Context {A : Type} (fs : list (sfactor A)) (pots : nat -> nat -> R).
  Context (ev : variable -> nat -> R) (m : msg) (xs : list variable).
  Hypothesis Hnd : NoDup xs.
  Hypothesis Hxs : incl (sf_edges fs) xs.
  Hypothesis Hpos : forall x, In x xs -> 0 < snd x.
  Hypothesis Hcfg : configs_ok fs.
  Hypothesis Hcov : covered fs.
  Let v := var_to_fac fs ev m.
  Let b := text_belief fs ev m.
  Hypothesis Hfix : forall f u, f < length fs -> u < arity fs f -> upto_at fs (fac_to_var_max fs pots v) m f u.
  Let ex := excess fs pots ev m.

  (** Any states of the other variables extend to an assignment of configurations that satisfy [P],
      if each state of the variable towards the root allows one. The root keeps its state. *)
  Lemma extend_by r (P : nat * nat -> nat -> Prop) (ord : list (nat * nat)) st0 : good fs r ord ->
    (forall q, In q ord -> fst q < length fs) ->
    (forall q, In q ord -> forall s, s < snd (svar fs q) -> (svar fs q = r -> s = st0 r) -> exists c, In c (choices fs (fst q) (snd q) s) /\ P q c) ->
    (forall x, In x xs -> st0 x < snd x) ->
    exists st cf, (forall x, ~ In x (flat_map (kids fs) ord) -> st x = st0 x) /\ (forall x, In x xs -> st x < snd x) /\
      forall q, In q ord -> cf (fst q) < length (sf_configs (factor_at fs (fst q))) /\ P q (cf (fst q)) /\
        forall u, u < arity fs (fst q) -> config_at_slot fs (fst q) (cf (fst q)) u = st (var_at fs (fst q) u).
  Proof.
    intros Hg. induction ord as [|q ord IH]; intros Hf HK Hst; [exists st0, (fun _ => 0); split; [reflexivity|]; split; [exact Hst|intros q []]|].
    cbn [good] in Hg. destruct Hg as [Hg [Hq [Hok Hl]]]. destruct IH as [st [cf [I1 [I2 I3]]]]; [exact Hg|intros p Hp; apply Hf; now right|intros p Hp; apply HK; now right|exact Hst|].
    assert (Hfq : fst q < length fs) by (apply Hf; now left). destruct Hok as [_ Huq].
    assert (Hsq : st (svar fs q) < snd (svar fs q)) by (apply I2, Hxs; now apply var_in_edges).
    assert (Hroot : svar fs q = r -> st (svar fs q) = st0 r) by (intros ->; apply I1, (proj2 (good_kids fs r ord Hg))).
    destruct (HK q (or_introl eq_refl) _ Hsq Hroot) as [c [Hc Ec]]. apply choice_iff in Hc. destruct Hc as [Hc Es].
    assert (Hparent : ~ In (svar fs q) (kids fs q)).
    { intros F. apply In_kids in F. destruct F as [u [Hu [Hne E]]]. destruct (Hl u Hu Hne) as [_ H].
      assert (F : q = (fst q, u)) by (apply H; [split; [now left|exact Huq]|symmetry; exact E]). apply Hne. rewrite F. reflexivity. }
    assert (Hkid : forall u, u < arity fs (fst q) -> u <> snd q -> set_kids fs q c st (var_at fs (fst q) u) = config_at_slot fs (fst q) c u).
    { intros u Hu Hne. unfold set_kids. destruct (find _ _) as [w|] eqn:E.
      - apply find_some in E. destruct E as [Hw E]. apply in_seq in Hw. apply Bool.andb_true_iff in E. destruct E as [_ E2]. apply var_eqb_eq in E2.
        destruct (Hl u Hu Hne) as [_ H]. assert (F : (fst q, w) = (fst q, u)) by (apply H; [split; [now left|cbn; lia]|exact E2]). now injection F as ->.
      - exfalso. assert (F := find_none _ _ E u ltac:(apply in_seq; lia)). cbn beta in F. rewrite (proj2 (var_eqb_eq _ _) eq_refl) in F. destruct (Nat.eqb_spec u (snd q)); [contradiction|discriminate]. }
    exists (set_kids fs q c st), (fun f => if f =? fst q then c else cf f). split; [|split].
    - intros x Hx. cbn [flat_map] in Hx. rewrite set_kids_other by (intros F; apply Hx, in_or_app; now left). apply I1. intros F. apply Hx, in_or_app. now right.
    - intros x Hx. destruct (classic (In x (kids fs q))) as [Hi|Hi].
      + apply In_kids in Hi. destruct Hi as [u [Hu [Hne <-]]]. rewrite Hkid by assumption. now apply (config_ok fs).
      + rewrite set_kids_other by exact Hi. now apply I2.
    - intros p [<-|Hp].
      + rewrite Nat.eqb_refl. split; [exact Hc|]. split; [exact Ec|]. intros u Hu. destruct (Nat.eq_dec u (snd q)) as [->|Hne].
        * rewrite Es. symmetry. apply set_kids_other. exact Hparent.
        * symmetry. now apply Hkid.
      + destruct (I3 p Hp) as [J1 [J2 J3]]. destruct (Nat.eqb_spec (fst p) (fst q)) as [E|Hne].
        { exfalso. apply Hq. rewrite <- E. exact (in_map fst ord p Hp). }
        split; [exact J1|]. split; [exact J2|]. intros u Hu. rewrite (J3 u Hu). symmetry. apply set_kids_other. intros F. apply In_kids in F.
        destruct F as [w [Hw [Hnw E]]]. destruct (Hl w Hw Hnw) as [_ H]. assert (F : (fst p, u) = (fst q, w)).
        { apply H; [split; [right; exact (in_map fst ord p Hp)|exact Hu]|symmetry; exact E]. }
        injection F as F1 F2. contradiction.
  Qed.

  Lemma rsum_split_one {X} (p : X -> bool) (h : X -> R) l q0 : NoDup l -> In q0 l -> p q0 = true -> (forall q, In q l -> p q = true -> q = q0) ->
    rsum (map h l) = (h q0 + rsum (map (fun q => if p q then 0 else h q) l))%R.
  Proof.
    induction l as [|q l IH]; intros Hn Hi Hp Hu; [destruct Hi|]. apply NoDup_cons_iff in Hn. destruct Hn as [Hn Hl]. cbn [map]. rewrite !rsum_cons.
    destruct Hi as [->|Hi].
    - rewrite Hp. rewrite (rsum_ext (fun q => if p q then 0 else h q)%R h l); [lra|]. intros z Hz. destruct (p z) eqn:Ez; [|reflexivity].
      exfalso. apply Hn. rewrite <- (Hu z); auto. now right.
    - destruct (p q) eqn:Eq; [exfalso; apply Hn; rewrite (Hu q); auto; now left|]. rewrite IH; auto; [lra|]. intros z Hz. apply Hu. now right.
  Qed.

  Lemma config_max_exact F : acyclic fs -> (forall f, f < length fs -> 0 < arity fs f) -> F < length fs ->
    exists k : R, forall c, c < length (sf_configs (factor_at fs F)) -> config_max fs pots ev xs F c (config_belief fs pots b m F c + k)%R.
  Proof.
    intros Hac Har HF. set (r := var_at fs F 0). assert (Hr : In r xs) by (apply Hxs, var_in_edges; auto).
    destruct (order_exists fs r Hac Har (length fs) (seq 0 (length fs))) as [ord [Hg Hp]];
      [apply seq_length|apply seq_NoDup|intros f Hf; apply in_seq in Hf; lia|].
    assert (Hlt : forall q, In q ord -> fst q < length fs).
    { intros q Hq. assert (H : In (fst q) (seq 0 (length fs))) by (apply (Permutation_in _ Hp), in_map, Hq). apply in_seq in H. lia. }
    assert (HuF : forall q, In q ord -> snd q < arity fs (fst q) /\ (fst q = F -> snd q = 0)).
    { clear - Hg. induction ord as [|p ord IH]; intros q Hq; [destruct Hq|]. cbn [good] in Hg. destruct Hg as [H1 [_ [[_ H2] H3]]].
      destruct Hq as [<-|Hq]; [|now apply IH]. split; [exact H2|]. intros EF. destruct (Nat.eq_dec (snd p) 0) as [E|Hne]; [exact E|exfalso].
      destruct (H3 0 ltac:(lia) ltac:(congruence)) as [N _]. apply N. rewrite EF. reflexivity. }
    assert (Hua : forall q, In q ord -> snd q < arity fs (fst q)) by (intros q Hq; apply (HuF q Hq)).
    destruct (excess_fun fs pots ev m Hcfg Hcov Hfix ord) as [K HK]; [intros q Hq; split; [now apply Hlt|now apply Hua]|].
    destruct (good_kids fs r ord Hg) as [N1 N2].
    destruct (NoDup_incl_perm (r :: flat_map (kids fs) ord) xs) as [others Ho].
    { now constructor. }
    { intros x [<-|Hx]; [exact Hr|]. apply in_flat_map in Hx. destruct Hx as [q [Hq Hx]]. apply (kids_vars fs xs Hxs q); [now apply Hlt|exact Hx]. }
    cbn [app] in Ho. set (best := fun x => rmaxs (map (b x) (seq 0 (snd x)))).
    assert (Hoth : forall x, In x others -> In x xs) by (intros x Hx; apply (Permutation_in _ (Permutation_sym Ho)); right; apply in_or_app; now right).
    assert (Hdo : NoDup ord) by (apply (NoDup_map_inv fst); apply (Permutation_NoDup (Permutation_sym Hp)), seq_NoDup).
    assert (HqF : In (F, 0) ord).
    { assert (HiF : In F (map fst ord)) by (apply (Permutation_in _ (Permutation_sym Hp)), in_seq; lia). apply in_map_iff in HiF. destruct HiF as [[q1 q2] [Eq Hq]].
      destruct (HuF _ Hq) as [_ U]. cbn [fst snd] in *. rewrite (U Eq) in Hq. now subst q1. }
    assert (HqU : forall q, In q ord -> (fst q =? F) = true -> q = (F, 0)).
    { intros [q1 q2] Hq Eq. apply Nat.eqb_eq in Eq. destruct (HuF _ Hq) as [_ U]. cbn [fst snd] in *. rewrite (U Eq). now subst q1. }
    assert (Hsp : forall h : nat * nat -> R, rsum (map h ord) = (h (F, 0%nat) + rsum (map (fun q => if (fst q =? F)%nat then 0 else h q) ord))%R).
    { intros h. apply (rsum_split_one (fun q => fst q =? F) h ord (F, 0) Hdo HqF); [apply Nat.eqb_refl|exact HqU]. }
    assert (Hcb : forall c, config_belief fs pots b m F c = (b r (config_at_slot fs F c 0%nat) + ex (F, 0%nat) c)%R).
    { intros c. rewrite (cb_score fs pots ev m F c HF : config_belief fs pots b m F c = _). unfold ex, excess. cbn [fst snd]. unfold svar. cbn [fst snd]. fold r b. lra. }
    exists (rsum (map best others) + rsum (map (fun q => if (fst q =? F)%nat then 0 else K q) ord))%R. intros c0 Hc0.
    pose proof (config_ok fs Hcfg F c0 0 HF Hc0 (Har F HF)) as Hs. change (var_at fs F 0) with r in Hs. set (s := config_at_slot fs F c0 0) in *. split.
    - (* attained *)
      assert (Hb : forall x, In x xs -> exists t, t < snd x /\ b x t = best x).
      { intros x Hx. assert (Hi : In (best x) (map (b x) (seq 0 (snd x)))).
        { apply rmaxs_In. specialize (Hpos x Hx). destruct (snd x); [lia|discriminate]. }
        apply in_map_iff in Hi. destruct Hi as [t [Et Ht]]. apply in_seq in Ht. exists t. split; [lia|exact Et]. }
      assert (Hst0 : forall l, incl l xs -> exists st0 : variable -> nat, forall x, In x l -> st0 x < snd x /\ (x = r -> st0 x = s) /\ (x <> r -> b x (st0 x) = best x)).
      { induction l as [|x l IH]; intros Hl; [exists (fun _ => 0); intros x []|]. destruct IH as [st0 H0]; [intros y Hy; apply Hl; now right|].
        destruct (Hb x) as [t [Ht Et]]; [apply Hl; now left|]. exists (fun y => if var_eqb y x then (if var_eqb x r then s else t) else st0 y). intros y Hy.
        destruct (var_eqb y x) eqn:Eyx.
        - apply var_eqb_eq in Eyx. subst y. destruct (var_eqb x r) eqn:Exr.
          + apply var_eqb_eq in Exr. rewrite Exr. repeat split; [exact Hs|intros G; now contradict G].
          + split; [exact Ht|]. split; [intros E; rewrite E, (proj2 (var_eqb_eq r r) eq_refl) in Exr; discriminate|intros _; exact Et].
        - apply H0. destruct Hy as [->|Hy]; [rewrite (proj2 (var_eqb_eq y y) eq_refl) in Eyx; discriminate|exact Hy]. }
      destruct (Hst0 xs (incl_refl xs)) as [st0 H0].
      destruct (extend_by r (fun q c => if (fst q =? F)%nat then c = c0 else ex q c = K q) ord st0 Hg Hlt) as [st [cf [I1 [I2 I3]]]].
      { intros q Hq t Ht Hrt. destruct (fst q =? F) eqn:EF.
        - rewrite (HqU q Hq EF) in *. exists c0. split; [|reflexivity]. cbn [fst snd]. apply choice_iff. split; [exact Hc0|].
          rewrite (Hrt eq_refl). symmetry. now apply (H0 r Hr).
        - now apply (proj2 (HK q Hq)). }
      { intros x Hx. apply (H0 x Hx). }
      assert (Hc : consistent fs st cf).
      { intros f Hf. assert (Hi : In f (map fst ord)) by (apply (Permutation_in _ (Permutation_sym Hp)), in_seq; lia).
        apply in_map_iff in Hi. destruct Hi as [q [<- Hq]]. destruct (I3 q Hq) as [J1 [_ J3]]. now split. }
      assert (Hsr : st r = s) by (rewrite I1 by exact N2; now apply (H0 r Hr)).
      assert (HcF : cf F = c0). { destruct (I3 (F, 0) HqF) as [_ [J _]]. cbn [fst] in J. rewrite Nat.eqb_refl in J. exact J. }
      exists st, cf. split; [now split|]. split; [exact HcF|].
      rewrite (score_order fs pots ev m xs Hnd Hxs st cf r ord others Hc Hua Hp Ho), Hsr. fold b ex. rewrite Hcb. fold s.
      assert (E1 : rsum (map (fun x => b x (st x)) others) = rsum (map best others)).
      { apply rsum_ext. intros x Hx. assert (Hnk : ~ In x (r :: flat_map (kids fs) ord)).
        { assert (Hd : NoDup ((r :: flat_map (kids fs) ord) ++ others)) by (apply (Permutation_NoDup Ho Hnd)).
          intros G. clear - Hd G Hx. induction (r :: flat_map (kids fs) ord) as [|y l IH]; [destruct G|]. cbn [app] in Hd. apply NoDup_cons_iff in Hd.
          destruct G as [->|G]; [apply (proj1 Hd), in_or_app; now right|now apply IH]. }
        rewrite I1 by (intros G; apply Hnk; now right). apply (H0 x (Hoth x Hx)). intros E. apply Hnk. left. now symmetry. }
      rewrite (Hsp (fun q => ex q (cf (fst q)))). cbn [fst]. rewrite HcF.
      assert (E2 : rsum (map (fun q => if (fst q =? F)%nat then 0 else ex q (cf (fst q)))%R ord) = rsum (map (fun q => if (fst q =? F)%nat then 0 else K q)%R ord)).
      { apply rsum_ext. intros q Hq. destruct (I3 q Hq) as [_ [J _]]. destruct (fst q =? F); [reflexivity|exact J]. }
      rewrite E1, E2. lra.
    - (* upper bound *)
      intros st cf [Hst Hc] HcF.
      assert (Hsr : st r = s). { destruct (Hc F HF) as [_ H]. unfold s. rewrite <- HcF. symmetry. exact (H 0 (Har F HF)). }
      rewrite (score_order fs pots ev m xs Hnd Hxs st cf r ord others Hc Hua Hp Ho), Hsr. fold b ex. rewrite Hcb. fold s.
      rewrite (Hsp (fun q => ex q (cf (fst q)))). cbn [fst]. rewrite HcF.
      assert (L1 : (rsum (map (fun x => b x (st x)) others) <= rsum (map best others))%R).
      { apply rsum_le. intros x Hx. unfold best. apply rmaxs_ub, in_map, in_seq. specialize (Hst x (Hoth x Hx)). lia. }
      assert (L2 : (rsum (map (fun q => if (fst q =? F)%nat then 0 else ex q (cf (fst q))) ord) <= rsum (map (fun q => if (fst q =? F)%nat then 0 else K q) ord))%R).
      { apply rsum_le. intros q Hq. destruct (fst q =? F); [lra|]. apply (proj1 (HK q Hq)). apply (Hc (fst q) (Hlt q Hq)). }
      lra.
  Qed.
End Exact.

Lemma config_belief_ext {A} (fs : list (sfactor A)) pots b b' m m' xs F c : configs_ok fs -> incl (sf_edges fs) xs ->
  (forall x s, In x xs -> s < snd x -> b x s = b' x s) -> msg_eq fs m m' -> F < length fs -> c < length (sf_configs (factor_at fs F)) ->
  config_belief fs pots b m F c = config_belief fs pots b' m' F c.
Proof.
  intros Hcfg Hxs Hb Hm HF Hc. unfold config_belief. f_equal. apply rsum_ext.
  intros u Hu. apply in_seq in Hu. pose proof (config_ok fs Hcfg F c u ltac:(lia) ltac:(lia) ltac:(lia)) as Hlt.
  rewrite Hb by (auto; apply Hxs, var_in_edges; lia). rewrite (Hm F u) by (auto; lia). reflexivity.
Qed.
Lemma C74_text_lemma {A} (fs : list (sfactor A)) pots ev xs m n :
  acyclic fs -> configs_ok fs -> covered fs -> (forall f, f < length fs -> 0 < arity fs f) ->
  NoDup xs -> incl (sf_edges fs) xs -> (forall x, In x xs -> 0 < snd x) ->
  length fs <= n ->
  (forall i, i < n -> unclipped fs (fac_to_var_max fs pots (var_to_fac fs ev (text_bp fs pots 0 0 ev m i)))) ->
  forall F, F < length fs -> exists k : R, forall c, c < length (sf_configs (factor_at fs F)) ->
    config_max fs pots ev xs F c (config_belief fs pots (text_belief fs ev (text_bp fs pots 0 0 ev m n)) (text_bp fs pots 0 0 ev m n) F c + k)%R.
Proof.
  intros Hac Hcfg Hcov Har Hnd Hxs Hpos Hn Hun F HF. apply config_max_exact; auto. intros f u Hf Hu.
  rewrite <- fac_to_var_0. apply converged; auto. intros i Hi. rewrite fac_to_var_0. now apply Hun.
Qed.

Section Code.
  Context (vgs : list vgroup) (g : fgraph R) (c : bp_ctx R).
  Hypothesis Hok : groups_ok vgs.
  Hypothesis Hr : reachable vgs g.
  Hypothesis Hwf : wf_groups (gr_groups g).
  Hypothesis Hbp : bp_of g 0%R c.
  Context (a : bp_arrays R).
  Hypothesis Ha : arrays_of c a.
  Let fs := graph_factors 0%R (gr_groups g).
  Let pots := graph_pots (gr_groups g) (ba_log_potentials a).
  Let ne := length (enum_factors (gr_groups g)).
  Let lens := map snd (sf_edges fs).
  Let ev := read_ev (gr_vars_to_starts g) (ba_evidence a).
  Let xs := all_vars vgs.
  Let text := text_bp fs pots 0 0 ev (read_msgs fs (ba_ftov_msgs a)).
  Context (n : nat).
  Hypothesis Hpos : forall gr k, In gr vgs -> In k (vg_num_states gr) -> 0 < k.
  Hypothesis Hac : acyclic fs.
  Hypothesis Har : forall f, f < length fs -> 0 < arity fs f.
  Hypothesis Hn : length fs <= n.
  Hypothesis Hun : forall i, i < n -> unclipped fs (fac_to_var_max fs pots (var_to_fac fs ev (text i))).
  Hypothesis Hsup : supported lens.
  Hypothesis Hfl : forall i, i <= n -> above_floor lens (unnormalised c a 0 i).
  Hypothesis Hir : forall i, i < n -> in_range fs pots ne 0 (var_to_fac fs ev (text i)).
  Let m := read_msgs fs (ba_ftov_msgs (run_bp c a n 0%R)).

  Lemma C74_max_lemma : exists r b, get_beliefs c (run_bp c a n 0%R) = Ok r /\ belief_table vgs r b /\
    forall F, F < length fs -> exists k : R, forall j, j < length (sf_configs (factor_at fs F)) ->
      config_max fs pots ev xs F j (config_belief fs pots b m F j + k)%R.
  Proof.
    pose proof (run_arrays vgs g c Hok Hr Hwf Hbp a Ha n) as Ha'.
    destruct (tables_belief vgs g 0%R c Hok Hr Hwf Hbp (run_bp c a n 0%R) Ha' Hpos) as [r [Er Tr]].
    exists r, (text_belief fs ev m). split; [exact Er|]. split; [exact Tr|].
    assert (Hm : msg_eq fs m (text n)) by (apply (C39_lemma vgs g 0%R c Hok Hr Hwf Hbp a Ha 0%R n Hsup Hfl Hir)).
    assert (Hcov : covered fs). { destruct (Nat.eq_dec n 0) as [E|Hne]; [intros f u s Hf; lia|]. apply (in_range_covered g 0%R Hwf a _ (Hir 0 ltac:(lia))). }
    assert (Hin : incl (sf_edges fs) xs) by exact (edges_in vgs g 0%R c Hok Hr Hwf Hbp).
    intros F HF.
    destruct (C74_text_lemma fs pots ev xs (read_msgs fs (ba_ftov_msgs a)) n Hac (graph_configs_ok (gr_groups g) Hwf) Hcov Har (all_vars_NoDup vgs Hok) Hin (var_some vgs Hok Hpos) Hn Hun F HF) as [k Hk].
    exists k. intros j Hj.
    rewrite (config_belief_ext fs pots (text_belief fs ev m) (text_belief fs ev (text n)) m (text n) xs F j (graph_configs_ok (gr_groups g) Hwf) Hin); auto.
    - intros x s Hx Hs. symmetry. rewrite (text_belief_shift fs ev ev 0%R m (text n) x s); [lra|lra|exact Hm|exact Hs].
  Qed.
End Code.

(** A configuration of largest belief belongs to an assignment of largest score. *)
Lemma config_max_best {A} (fs : list (sfactor A)) pots ev xs F (h : nat -> R) j : F < length fs ->
  (exists k : R, forall i, i < length (sf_configs (factor_at fs F)) -> config_max fs pots ev xs F i (h i + k)%R) ->
  j < length (sf_configs (factor_at fs F)) ->
  (forall i, i < length (sf_configs (factor_at fs F)) -> (h i <= h j)%R) ->
  exists st cf, joint fs xs st cf /\ cf F = j /\
    forall st' cf', joint fs xs st' cf' -> (joint_score fs pots ev xs st' cf' <= joint_score fs pots ev xs st cf)%R.
Proof.
  intros HF [k Hk] Hj Hb. destruct (Hk j Hj) as [[st [cf [J [Ec Es]]]] _]. exists st, cf. split; [exact J|]. split; [exact Ec|].
  intros st' cf' J'. rewrite Es. destruct J' as [J1 J2]. destruct (J2 F HF) as [Hi _]. destruct (Hk (cf' F) Hi) as [_ U].
  specialize (U st' cf' (conj J1 J2) eq_refl). specialize (Hb _ Hi). lra.
Qed.
Lemma C74_small_lemma vgs (g : fgraph R) (c : bp_ctx R) : groups_ok vgs -> reachable vgs g -> wf_groups (gr_groups g) -> bp_of g 0%R c ->
  forall a, arrays_of c a ->
  let fs := graph_factors 0%R (gr_groups g) in
  let pots := graph_pots (gr_groups g) (ba_log_potentials a) in
  let ev := read_ev (gr_vars_to_starts g) (ba_evidence a) in
  let lens := map snd (sf_edges fs) in
  (forall gr k, In gr vgs -> In k (vg_num_states gr) -> 0 < k) ->
  acyclic fs -> (forall f, f < length fs -> 0 < arity fs f) ->
  forall B P D K P' B' M' N', moderate fs pots (length (enum_factors (gr_groups g))) ev B P D K ->
  small fs 0 pots ev (read_msgs fs (ba_ftov_msgs a)) P' B' M' N' ->
  supported lens -> above_floor lens (ba_ftov_msgs a) ->
  forall n, length fs <= n ->
  exists r b, get_beliefs c (run_bp c a n 0%R) = Ok r /\ belief_table vgs r b /\
    let belief := config_belief fs pots b (read_msgs fs (ba_ftov_msgs (run_bp c a n 0%R))) in
    forall F, F < length fs ->
      (exists k : R, forall j, j < length (sf_configs (factor_at fs F)) -> config_max fs pots ev (all_vars vgs) F j (belief F j + k)%R) /\
      forall j, j < length (sf_configs (factor_at fs F)) ->
        (forall i, i < length (sf_configs (factor_at fs F)) -> (belief F i <= belief F j)%R) ->
        exists st cf, joint fs (all_vars vgs) st cf /\ cf F = j /\
          forall st' cf', joint fs (all_vars vgs) st' cf' -> (joint_score fs pots ev (all_vars vgs) st' cf' <= joint_score fs pots ev (all_vars vgs) st cf)%R.
Proof.
  intros Hok Hr Hwf Hbp a Ha fs pots ev lens Hpos Hac Har B P D K P' B' M' N' Hmod Hsm Hsup Hfl n Hn.
  destruct (small_given vgs g 0%R c Hok Hr Hwf Hbp a Ha B P D K Hmod ltac:(lra) Hsup Hfl Hac P' B' M' N' Hsm) as [G1 [G2 G3]].
  destruct (C74_max_lemma vgs g c Hok Hr Hwf Hbp a Ha n) as [r [b [Er [Tr H]]]]; auto.
  { intros i Hi. specialize (G1 i). rewrite fac_to_var_0 in G1. exact G1. }
  exists r, b. split; [exact Er|]. split; [exact Tr|]. intros belief F HF. split; [exact (H F HF)|]. intros j Hj Hb.
  exact (config_max_best fs pots ev (all_vars vgs) F (belief F) j HF (H F HF) Hj Hb).
Qed.
