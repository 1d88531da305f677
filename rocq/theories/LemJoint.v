(** * Joint marginals of the variables of a factor on acyclic graphs (towards C73). *)
From Verif Require Import NumPy Lists VGroup FGraph BPState BP SpecVGroup SpecFGraph SpecFactor SpecWiring SpecState SpecBP SpecText SpecBeliefs SpecTree SpecSum SpecFix SpecJoint.
From Verif Require Import LemVGroup LemFGraph LemState LemNum LemNorm LemVtoF LemText LemRun LemBeliefs LemBruteSoft LemShift LemPerm LemTree LemExact LemSpread LemSum LemFix.
From Coq Require Import Reals Lra Lia Permutation FunctionalExtensionality.
Local Open Scope nat_scope.

Section Exact.
  Context {A : Type} (fs : list (sfactor A)) (pots : nat -> nat -> R) (T : R).
  Context (ev : variable -> nat -> R) (m : msg) (xs : list variable).
  Hypothesis HT : T <> 0%R.
  Hypothesis Hnd : NoDup xs.
  Hypothesis Hxs : incl (sf_edges fs) xs.
  Hypothesis Hpos : forall x, In x xs -> 0 < snd x.
  Hypothesis Hcfg : configs_ok fs.
  Hypothesis Hcov : covered fs.
  Let v := var_to_fac fs ev m.
  Let b := text_belief fs ev m.
  Hypothesis Hfix : forall f u, f < length fs -> u < arity fs f -> upto_at fs (fac_to_var_soft fs pots T v) m f u.
  Let ex := excess fs pots ev m.
  (** Only the configurations selected by [sel]. *)
  Context (sel : nat -> nat -> bool).
  Definition sel_weight (st : variable -> nat) : R :=
    (exp (rsum (map (fun x => ev x (st x)) xs) / T)
     * rprod (map (fun f => rsum (map (fun c => if sel f c then exp (pots f c / T) else 0%R) (agree fs f st))) (seq 0 (length fs))))%R.
  Definition hsel (q : nat * nat) (c : nat) : R := if sel (fst q) c then exp (ex q c / T) else 0%R.
  Definition sel_sum (q : nat * nat) (st : variable -> nat) : R := rsum (map (hsel q) (agree fs (fst q) st)).
  Lemma sel_factor q st : fst q < length fs -> snd q < arity fs (fst q) ->
    rsum (map (fun c => if sel (fst q) c then exp (pots (fst q) c / T) else 0%R) (agree fs (fst q) st)) =
    (exp ((rsum (map (fun u => m (fst q) u (st (var_at fs (fst q) u))) (seq 0 (arity fs (fst q)))) - rsum (map (fun x => b x (st x)) (kids fs q))) / T) * sel_sum q st)%R.
  Proof.
    destruct q as [f u]. cbn [fst snd]. intros Hf Hu. unfold sel_sum. rewrite <- rsum_scal. apply rsum_ext. intros c Hc. apply In_agree in Hc. cbn [fst] in Hc. destruct Hc as [Hc Hst].
    unfold hsel. cbn [fst]. destruct (sel f c); [|ring].
    rewrite <- exp_plus. f_equal. unfold ex, excess. cbn [fst snd]. unfold score, svar, kids. cbn [fst snd]. rewrite map_map. fold v.
    rewrite (rsum_ext (fun u0 => v f u0 (config_at_slot fs f c u0)) (fun u0 => b (var_at fs f u0) (st (var_at fs f u0)) - m f u0 (st (var_at fs f u0)))%R).
    - rewrite rsum_minus. rewrite (rsum_remove (fun u0 => b (var_at fs f u0) (st (var_at fs f u0))) (seq 0 (arity fs f)) u); [|apply seq_NoDup|apply in_seq; lia].
      rewrite (Hst u Hu). fold b. field. exact HT.
    - intros u0 Hu0. apply in_seq in Hu0. rewrite (Hst u0) by lia. unfold v. rewrite vtof_belief by lia. reflexivity.
  Qed.
  Lemma sel_order st r ord others : (forall q, In q ord -> fst q < length fs /\ snd q < arity fs (fst q)) ->
    Permutation (map fst ord) (seq 0 (length fs)) -> Permutation xs (r :: flat_map (kids fs) ord ++ others) ->
    sel_weight st = (exp ((b r (st r) + rsum (map (fun x => b x (st x)) others)) / T) * rprod (map (fun q => sel_sum q st) ord))%R.
  Proof.
    intros Hq Hp Hx. unfold sel_weight.
    rewrite <- (rprod_perm _ _ (Permutation_map _ Hp)), map_map.
    rewrite (rprod_ext _ (fun q => exp ((rsum (map (fun u => m (fst q) u (st (var_at fs (fst q) u))) (seq 0 (arity fs (fst q)))) - rsum (map (fun x => b x (st x)) (kids fs q))) / T) * sel_sum q st)%R)
      by (intros q Hi; destruct (Hq q Hi); now apply sel_factor).
    rewrite rprod_mult, rprod_exp, <- Rmult_assoc, <- exp_plus. f_equal. f_equal. rewrite rsum_div, rsum_minus.
    assert (E1 : rsum (map (fun x => b x (st x)) xs) =
      (rsum (map (fun x => ev x (st x)) xs) + rsum (map (fun q => rsum (map (fun u => m (fst q) u (st (var_at fs (fst q) u))) (seq 0 (arity fs (fst q))))) ord))%R).
    { unfold b, text_belief. rewrite rsum_plus. f_equal. unfold slots_of.
      rewrite (rsum_classes (fun fu => var_at fs (fst fu) (snd fu)) (fun x fu => m (fst fu) (snd fu) (st x)) xs (slots fs) Hnd).
      - unfold slots. rewrite rsum_flat_map. rewrite <- (rsum_perm _ _ (Permutation_map _ Hp)), map_map. apply rsum_ext. intros f _. rewrite map_map. reflexivity.
      - intros [f u] Hi. apply In_slots in Hi. cbn [fst snd] in *. apply Hxs. now apply var_in_edges. }
    rewrite (rsum_perm _ _ (Permutation_map (fun x => b x (st x)) Hx)) in E1. cbn [map] in E1. rewrite rsum_cons, map_app, rsum_app, rsum_flat_map in E1.
    replace (b r (st r) + rsum (map (fun x => b x (st x)) others))%R
      with (rsum (map (fun x => ev x (st x)) xs) + rsum (map (fun q => rsum (map (fun u => m (fst q) u (st (var_at fs (fst q) u))) (seq 0 (arity fs (fst q))))) ord)
            - rsum (map (fun x => rsum (map (fun x0 => b x0 (st x0)) (kids fs x))) ord))%R by lra.
    field. exact HT.
  Qed.
  (** Summing out the other variables of one factor. *)
  Lemma sel_kids r q (ord : list (nat * nat)) : leaf fs r (fst q :: map fst ord) q -> fst q < length fs ->
    forall st, (forall x, In x xs -> st x < snd x) -> sum_states (kids fs q) st (sel_sum q) = rsum (map (hsel q) (choices fs (fst q) (snd q) (st (svar fs q)))).
  Proof.
    intros [[_ Huq] Hl] Hf st Hst. unfold sel_sum.
    assert (Hparent : ~ In (svar fs q) (kids fs q)).
    { intros F. apply In_kids in F. destruct F as [u [Hu [Hne E]]]. destruct (Hl u Hu Hne) as [_ H].
      assert (F : q = (fst q, u)) by (apply H; [split; [now left|exact Huq]|symmetry; exact E]). apply Hne. rewrite F. reflexivity. }
    assert (Hkid : forall c u, u < arity fs (fst q) -> u <> snd q -> set_kids fs q c st (var_at fs (fst q) u) = config_at_slot fs (fst q) c u).
    { intros c u Hu Hne. unfold set_kids. destruct (find _ _) as [w|] eqn:E.
      - apply find_some in E. destruct E as [Hw E]. apply in_seq in Hw. apply Bool.andb_true_iff in E. destruct E as [_ E2]. apply var_eqb_eq in E2.
        destruct (Hl u Hu Hne) as [_ H]. assert (F : (fst q, w) = (fst q, u)) by (apply H; [split; [now left|cbn; lia]|exact E2]). now injection F as ->.
      - exfalso. assert (F := find_none _ _ E u ltac:(apply in_seq; lia)). cbn beta in F. rewrite (proj2 (var_eqb_eq _ _) eq_refl) in F. destruct (Nat.eqb_spec u (snd q)); [contradiction|discriminate]. }
    assert (Nk : NoDup (kids fs q)).
    { unfold kids. apply NoDup_map_on; [apply NoDup_filter, seq_NoDup|]. intros u w Hu Hw E. apply filter_In in Hu, Hw. destruct Hu as [Hu Hu'], Hw as [Hw Hw'].
      apply in_seq in Hu, Hw. destruct (Nat.eqb_spec w (snd q)) as [|Hne]; [discriminate|]. destruct (Hl w ltac:(lia) Hne) as [_ H].
      specialize (H (fst q, u)). assert (F : (fst q, u) = (fst q, w)) by (apply H; [split; [now left|cbn; lia]|exact E]). now injection F. }
    transitivity (sum_states (kids fs q) st (fun t => rsum (map (fun c => if forallb (fun y => set_kids fs q c st y =? t y) (kids fs q) then hsel q c else 0%R)
      (choices fs (fst q) (snd q) (st (svar fs q)))))).
    - apply sum_ext. intros t t' H1 H2. unfold agree, choices. rewrite !rsum_filter_if. apply rsum_ext. intros c Hc.
      assert (Ep : t (svar fs q) = st (svar fs q)) by now apply (H2 (svar fs q)).
      destruct (Nat.eqb_spec (config_at_slot fs (fst q) c (snd q)) (st (svar fs q))) as [Es|Es].
      + assert (E : forallb (fun u => config_at_slot fs (fst q) c u =? t (var_at fs (fst q) u)) (seq 0 (arity fs (fst q)))
          = forallb (fun y => set_kids fs q c st y =? t' y) (kids fs q)); [|rewrite E; reflexivity].
        apply Bool.eq_true_iff_eq. rewrite !forallb_forall. split.
        * intros H y Hy. pose proof Hy as Hy'. apply In_kids in Hy. destruct Hy as [u [Hu [Hne <-]]]. rewrite Hkid by assumption.
          specialize (H u ltac:(apply in_seq; lia)). rewrite <- (proj1 (H1 _ Hy')). exact H.
        * intros H u Hu. apply in_seq in Hu. destruct (Nat.eq_dec u (snd q)) as [->|Hne].
          -- apply Nat.eqb_eq. unfold svar in *. congruence.
          -- assert (Hy : In (var_at fs (fst q) u) (kids fs q)) by (apply In_kids; exists u; repeat split; [lia|exact Hne]).
             specialize (H _ Hy). rewrite Hkid in H by (auto; lia). rewrite (proj1 (H1 _ Hy)). exact H.
      + assert (E : forallb (fun u => config_at_slot fs (fst q) c u =? t (var_at fs (fst q) u)) (seq 0 (arity fs (fst q))) = false); [|rewrite E; reflexivity].
        apply Bool.not_true_iff_false. rewrite forallb_forall. intros H. specialize (H (snd q) ltac:(apply in_seq; lia)). apply Nat.eqb_eq in H.
        unfold svar in *. congruence.
    - rewrite (sum_rsum (kids fs q) (choices fs (fst q) (snd q) (st (svar fs q))) st (fun c t => if forallb (fun y => set_kids fs q c st y =? t y) (kids fs q) then hsel q c else 0%R)).
      apply rsum_ext. intros c Hc. apply choice_iff in Hc. apply sum_single; [exact Nk|]. intros y Hy. apply In_kids in Hy. destruct Hy as [u [Hu [Hne <-]]].
      rewrite Hkid by assumption. now apply (config_ok fs).
  Qed.
  (** Summing out all of them. The sums may depend on the state of the root. *)
  Lemma sel_sums r (K : nat * nat -> nat -> R) (ord : list (nat * nat)) : good fs r ord -> (forall q, In q ord -> fst q < length fs) ->
    (forall q, In q ord -> forall st, (forall x, In x xs -> st x < snd x) -> rsum (map (hsel q) (choices fs (fst q) (snd q) (st (svar fs q)))) = K q (st r)) ->
    forall st, (forall x, In x xs -> st x < snd x) ->
    sum_states (flat_map (kids fs) (rev ord)) st (fun t => rprod (map (fun q => sel_sum q t) ord)) = rprod (map (fun q => K q (st r)) ord).
  Proof.
    induction ord as [|q ord IH]; intros Hg Hf HK st Hst; [reflexivity|]. cbn [good] in Hg. destruct Hg as [Hg [Hq Hleaf]].
    cbn [rev map]. rewrite flat_map_app. cbn [flat_map]. rewrite app_nil_r, sum_app, rprod_cons.
    rewrite <- (IH Hg (fun p Hp => Hf p (or_intror Hp)) (fun p Hp => HK p (or_intror Hp)) st Hst), <- sum_scal.
    apply sum_ext. intros t t' H1 H2.
    assert (Et : forall x, t x = t' x). { intros x. destruct (in_dec var_dec x (flat_map (kids fs) (rev ord))) as [Hi|Hi]; [now apply H1|]. destruct (H2 x Hi). congruence. }
    apply functional_extensionality in Et. subst t'.
    assert (Ht : forall x, In x xs -> t x < snd x). { intros x Hx. destruct (in_dec var_dec x (flat_map (kids fs) (rev ord))) as [Hi|Hi]; [now apply H1|]. destruct (H2 x Hi) as [-> _]. now apply Hst. }
    assert (Etr : t r = st r).
    { assert (Hnr : ~ In r (flat_map (kids fs) (rev ord))); [|now apply (H2 r Hnr)]. intros F. apply (proj2 (good_kids fs r ord Hg)).
      apply in_flat_map in F. destruct F as [p [Hp Hk]]. apply in_flat_map. exists p. split; [now apply in_rev|exact Hk]. }
    rewrite <- Etr, <- (HK q (or_introl eq_refl) t Ht), <- (sel_kids r q ord Hleaf (Hf q (or_introl eq_refl)) t Ht), Rmult_comm, <- sum_scal.
    apply sum_ext. intros w w' J1 J2.
    assert (Ew : forall x, w x = w' x). { intros x. destruct (in_dec var_dec x (kids fs q)) as [Hi|Hi]; [now apply J1|]. destruct (J2 x Hi). congruence. }
    apply functional_extensionality in Ew. subst w'. rewrite rprod_cons, Rmult_comm. f_equal. apply rprod_ext. intros p Hp. unfold sel_sum.
    assert (E : agree fs (fst p) w = agree fs (fst p) t); [|now rewrite E]. unfold agree. apply filter_ext. intros c. apply forallb_ext_in. intros u Hu. apply in_seq in Hu.
    assert (E : w (var_at fs (fst p) u) = t (var_at fs (fst p) u)); [|now rewrite E]. apply (J2 (var_at fs (fst p) u)). intros F. apply In_kids in F.
    destruct F as [v0 [Hw [Hnw E]]]. destruct Hleaf as [_ Hl]. destruct (Hl v0 Hw Hnw) as [_ H]. assert (F : (fst p, u) = (fst q, v0)).
    { apply H; [split; [right; exact (in_map fst ord p Hp)|cbn; lia]|symmetry; exact E]. }
    injection F as F1 F2. apply Hq. rewrite <- F1. exact (in_map fst ord p Hp).
  Qed.
End Exact.

Lemma rprod_single {X} (p : X -> bool) (y : R) (h : X -> R) l : NoDup l -> (exists! q, In q l /\ p q = true) ->
  rprod (map (fun q => if p q then y else h q) l) = (rprod (map (fun q => if p q then 1 else h q) l) * y)%R.
Proof.
  induction l as [|q l IH]; intros Hn [q0 [[Hq Hp] Hu]]; [destruct Hq|]. apply NoDup_cons_iff in Hn. destruct Hn as [Hn Hl]. cbn [map]. rewrite !rprod_cons.
  destruct Hq as [->|Hq].
  - rewrite Hp. rewrite (rprod_ext (fun q => if p q then y else h q) (fun q => if p q then 1 else h q)%R); [ring|].
    intros z Hz. destruct (p z) eqn:Ez; [|reflexivity]. exfalso. apply Hn. rewrite (Hu z); [exact Hz|]. split; [now right|exact Ez].
  - destruct (p q) eqn:Eq; [exfalso; apply Hn; rewrite <- (Hu q); [exact Hq|split; [now left|exact Eq]]|].
    rewrite IH; [ring|exact Hl|]. exists q0. split; [now split|]. intros z [Hz Pz]. apply Hu. split; [now right|exact Pz].
Qed.

Section Joint.
  Context {A : Type} (fs : list (sfactor A)) (pots : nat -> nat -> R) (T : R).
  Context (ev : variable -> nat -> R) (m : msg) (xs : list variable).
  Hypothesis HT : T <> 0%R.
  Hypothesis Hnd : NoDup xs.
  Hypothesis Hxs : incl (sf_edges fs) xs.
  Hypothesis Hpos : forall x, In x xs -> 0 < snd x.
  Hypothesis Hcfg : configs_ok fs.
  Hypothesis Hcov : covered fs.
  Let v := var_to_fac fs ev m.
  Let b := text_belief fs ev m.
  Hypothesis Hfix : forall f u, f < length fs -> u < arity fs f -> upto_at fs (fac_to_var_soft fs pots T v) m f u.
  Let ex := excess fs pots ev m.
  Hypothesis Hac : acyclic fs.
  Hypothesis Har : forall f, f < length fs -> 0 < arity fs f.

  Lemma sel_total F : F < length fs -> exists k : R, (0 < k)%R /\ forall sel, (forall f c, f <> F -> sel f c = true) ->
    sum_states xs (fun _ => 0) (sel_weight fs pots T ev xs sel) =
    (k * rsum (map (fun c => if sel F c then exp (config_belief fs pots b m F c / T) else 0%R) (seq 0 (length (sf_configs (factor_at fs F))))))%R.
  Proof.
    intros HF. set (r := var_at fs F 0). assert (Hr : In r xs) by (apply Hxs, var_in_edges; auto).
    destruct (order_exists fs r Hac Har (length fs) (seq 0 (length fs))) as [ord [Hg Hp]];
      [apply seq_length|apply seq_NoDup|intros f Hf; apply in_seq in Hf; lia|].
    assert (Hlt : forall q, In q ord -> fst q < length fs).
    { intros q Hq. assert (H : In (fst q) (seq 0 (length fs))) by (apply (Permutation_in _ Hp), in_map, Hq). apply in_seq in H. lia. }
    assert (Hua : forall q, In q ord -> snd q < arity fs (fst q) /\ (fst q = F -> snd q = 0)).
    { clear - Hg. induction ord as [|p ord IH]; intros q Hq; [destruct Hq|]. cbn [good] in Hg. destruct Hg as [H1 [_ [[_ H2] H3]]].
      destruct Hq as [<-|Hq]; [|now apply IH]. split; [exact H2|]. intros EF. destruct (Nat.eq_dec (snd p) 0) as [E|Hne]; [exact E|exfalso].
      destruct (H3 0 ltac:(lia) ltac:(congruence)) as [N _]. apply N. rewrite EF. reflexivity. }
    destruct (excess_sums fs pots T ev m HT Hcov Hfix ord) as [K HK]; [intros q Hq; split; [now apply Hlt|now apply Hua]|].
    destruct (good_kids fs r ord Hg) as [N1 N2].
    destruct (NoDup_incl_perm (r :: flat_map (kids fs) ord) xs) as [others Ho].
    { now constructor. }
    { intros x [<-|Hx]; [exact Hr|]. apply in_flat_map in Hx. destruct Hx as [q [Hq Hx]]. apply (kids_vars fs xs Hxs q); [now apply Hlt|exact Hx]. }
    cbn [app] in Ho.
    assert (Ho' : Permutation xs (r :: others ++ flat_map (kids fs) (rev ord))).
    { rewrite Ho. apply perm_skip. rewrite Permutation_app_comm. apply Permutation_app_head. apply Permutation_flat_map, Permutation_rev. }
    assert (Hoth : forall x, In x others -> In x xs) by (intros x Hx; apply (Permutation_in _ (Permutation_sym Ho)); right; apply in_or_app; now right).
    assert (Hnr : ~ In r others). { pose proof (Permutation_NoDup Ho' Hnd) as Hd. apply NoDup_cons_iff in Hd. intros G. apply (proj1 Hd), in_or_app. now left. }
    assert (Hno : forall x, In x others -> ~ In x (flat_map (kids fs) (rev ord))).
    { pose proof (Permutation_NoDup Ho' Hnd) as Hd. apply NoDup_cons_iff in Hd. destruct Hd as [_ Hd]. clear - Hd. intros x Hx G.
      induction others as [|y l IH]; [destruct Hx|]. cbn [app] in Hd. apply NoDup_cons_iff in Hd. destruct Hx as [->|Hx]; [apply (proj1 Hd), in_or_app; now right|now apply IH]. }
    set (C := sum_states others (fun _ => 0) (fun t => exp (rsum (map (fun x => b x (t x)) others) / T))).
    assert (HC : (0 < C)%R) by (apply sum_pos; [intros y Hy; apply Hpos; now apply Hoth|intros t; apply exp_pos]).
    set (P := rprod (map (fun q => if fst q =? F then 1 else K q)%R ord)).
    assert (HP : (0 < P)%R). { apply rprod_pos. intros x Hx. apply in_map_iff in Hx. destruct Hx as [q [<- Hq]]. destruct (fst q =? F); [lra|]. apply (HK q Hq). }
    assert (Hone : exists! q, In q ord /\ (fst q =? F) = true).
    { assert (HiF : In F (map fst ord)) by (apply (Permutation_in _ (Permutation_sym Hp)), in_seq; lia). apply in_map_iff in HiF. destruct HiF as [q [Eq Hq]].
      exists q. split; [split; [exact Hq|now apply Nat.eqb_eq]|]. intros z [Hz Ez]. apply Nat.eqb_eq in Ez.
      destruct (Hua q Hq) as [_ U1]. destruct (Hua z Hz) as [_ U2]. destruct q as [q1 q2], z as [z1 z2]. cbn [fst snd] in *. rewrite (U1 Eq), (U2 Ez). congruence. }
    assert (Hdo : NoDup ord) by (apply (NoDup_map_inv fst); apply (Permutation_NoDup (Permutation_sym Hp)), seq_NoDup).
    exists (P * C)%R. split; [now apply Rmult_lt_0_compat|]. intros sel Hsel.
    set (Y := fun s => rsum (map (hsel fs pots T ev m sel (F, 0)) (choices fs F 0 s))).
    rewrite (sum_perm _ _ Ho' Hnd). cbn [sum_states].
    transitivity (rsum (map (fun s => (P * C) * (exp (b r s / T) * Y s))%R (seq 0 (snd r)))).
    2:{ rewrite rsum_scal. f_equal. rewrite <- (choices_partition fs Hcfg _ F 0 HF (Har F HF)). apply rsum_ext. intros s Hs. unfold Y. rewrite <- rsum_scal.
        apply rsum_ext. intros c Hc. apply choice_iff in Hc. unfold hsel. cbn [fst]. destruct (sel F c); [|ring]. rewrite <- exp_plus. f_equal.
        unfold excess. cbn [fst snd]. unfold svar. cbn [fst snd]. rewrite (proj2 Hc). rewrite <- (cb_score fs pots ev m F c HF). fold b r. field. exact HT. }
    apply rsum_ext. intros s Hs. apply in_seq in Hs. rewrite sum_app. unfold C.
    replace (P * sum_states others (fun _ => 0%nat) (fun t => exp (rsum (map (fun x => b x (t x)) others) / T)) * (exp (b r s / T) * Y s))%R
      with ((P * Y s * exp (b r s / T)) * sum_states others (fun _ => 0%nat) (fun t => exp (rsum (map (fun x => b x (t x)) others) / T)))%R by ring.
    rewrite <- sum_scal. apply sum_ext. intros t t' H1 H2.
    assert (Etr : t r = s) by (destruct (H2 r Hnr) as [-> _]; apply assign_same).
    assert (Ht : forall x, In x xs -> t x < snd x).
    { intros x Hx. destruct (in_dec var_dec x others) as [Hi|Hi]; [now apply H1|]. destruct (var_dec x r) as [->|Hne]; [rewrite Etr; lia|].
      destruct (H2 x Hi) as [-> _]. rewrite assign_other by exact Hne. now apply Hpos. }
    assert (EP : (P * Y s)%R = rprod (map (fun q => if fst q =? F then Y s else K q)%R ord)) by (symmetry; now apply rprod_single).
    assert (SS : sum_states (flat_map (kids fs) (rev ord)) t (fun t => rprod (map (fun q => sel_sum fs pots T ev m sel q t) ord))
      = rprod (map (fun q => if fst q =? F then Y s else K q)%R ord)).
    { rewrite <- Etr. refine (sel_sums fs pots T ev m xs Hcfg sel r (fun q s => if fst q =? F then Y s else K q) ord Hg Hlt _ t Ht).
      intros q Hq st Hst. destruct (Nat.eqb_spec (fst q) F) as [EF|NF].
      + destruct (Hua q Hq) as [_ U]. specialize (U EF). destruct q as [q1 q2]. cbn [fst snd] in *. subst q1 q2. reflexivity.
      + rewrite <- (proj2 (HK q Hq) (st (svar fs q))) by (apply Hst, Hxs; apply var_in_edges; [now apply Hlt|now apply Hua]).
        apply rsum_ext. intros c _. unfold hsel. now rewrite Hsel. }
    rewrite EP, <- SS. clear EP SS.
    rewrite Rmult_assoc, <- exp_plus, Rmult_comm, <- sum_scal. apply sum_ext. intros w w' J1 J2.
      assert (Ew : forall x, w x = w' x). { intros x. destruct (in_dec var_dec x (flat_map (kids fs) (rev ord))) as [Hi|Hi]; [now apply J1|]. destruct (J2 x Hi). congruence. }
      apply functional_extensionality in Ew. subst w'.
      rewrite (sel_order fs pots T ev m xs HT Hnd Hxs sel w r ord others (fun q Hq => conj (Hlt q Hq) (proj1 (Hua q Hq))) Hp Ho). fold b. f_equal. f_equal.
      assert (Er : w r = s). { rewrite <- Etr. apply (J2 r). intros G. apply N2. apply in_flat_map in G. destruct G as [q [Hq Hk]]. apply in_flat_map. exists q. split; [now apply in_rev|exact Hk]. }
      rewrite Er. rewrite (rsum_ext (fun x => b x (w x)) (fun x => b x (t' x)) others); [field; exact HT|].
      intros x Hx. destruct (J2 x (Hno x Hx)) as [-> _]. now destruct (H1 x Hx) as [-> _].
  Qed.

  Lemma config_marginal_exact F c : F < length fs -> c < length (sf_configs (factor_at fs F)) ->
    config_marginal fs pots T ev xs F c = config_prob fs pots T b m F c.
  Proof.
    intros HF Hc. destruct (sel_total F HF) as [k [Hk E]]. unfold config_marginal.
    assert (E1 : sum_states xs (fun _ => 0) (config_weight fs pots T ev xs F c) = (k * exp (config_belief fs pots b m F c / T))%R).
    { transitivity (sum_states xs (fun _ => 0) (sel_weight fs pots T ev xs (fun f j => negb (f =? F) || (j =? c)))).
      - f_equal. apply functional_extensionality. intros st. unfold config_weight, sel_weight. f_equal. apply rprod_ext. intros f _. apply rsum_filter_if.
      - rewrite E by (intros f j Hne; destruct (Nat.eqb_spec f F); [contradiction|reflexivity]). f_equal. rewrite Nat.eqb_refl. cbn [negb orb].
        rewrite (rsum_ext _ (fun j => if j =? c then exp (config_belief fs pots b m F c / T) else 0%R)).
        + apply rsum_single_nat; [apply seq_NoDup|apply in_seq; lia].
        + intros j _. destruct (Nat.eqb_spec j c) as [->|]; reflexivity. }
    assert (E2 : sum_states xs (fun _ => 0) (state_weight fs pots T ev xs) =
      (k * rsum (map (fun j => exp (config_belief fs pots b m F j / T)) (seq 0 (length (sf_configs (factor_at fs F))))))%R).
    { rewrite <- (E (fun _ _ => true)) by reflexivity. reflexivity. }
    rewrite E1, E2. unfold config_prob, gibbs.
    assert (P : (0 < rsum (map (fun j => exp (config_belief fs pots b m F j / T)) (seq 0 (length (sf_configs (factor_at fs F))))))%R).
    { apply rsum_pos; [destruct (length (sf_configs (factor_at fs F))); [lia|discriminate]|]. intros x Hx. apply in_map_iff in Hx. destruct Hx as [j [<- _]]. apply exp_pos. }
    field. split; lra.
  Qed.
End Joint.

(** Only the beliefs and messages of existing states matter. *)
Lemma config_prob_ext {A} (fs : list (sfactor A)) pots T b b' m m' xs F j : configs_ok fs -> incl (sf_edges fs) xs ->
  (forall x s, In x xs -> s < snd x -> b x s = b' x s) -> msg_eq fs m m' -> F < length fs -> j < length (sf_configs (factor_at fs F)) ->
  config_prob fs pots T b m F j = config_prob fs pots T b' m' F j.
Proof.
  intros Hcfg Hxs Hb Hm HF Hj. unfold config_prob. apply gibbs_ext; [exact Hj|]. intros c Hc. f_equal. unfold config_belief. f_equal. apply rsum_ext.
  intros u Hu. apply in_seq in Hu. pose proof (config_ok fs Hcfg F c u ltac:(lia) ltac:(lia) ltac:(lia)) as Hlt.
  rewrite Hb by (auto; apply Hxs, var_in_edges; lia). rewrite (Hm F u) by (auto; lia). reflexivity.
Qed.
Lemma C73_text_lemma {A} (fs : list (sfactor A)) pots T ev xs m n :
  T <> 0%R -> acyclic fs -> configs_ok fs -> covered fs -> (forall f, f < length fs -> 0 < arity fs f) ->
  NoDup xs -> incl (sf_edges fs) xs -> (forall x, In x xs -> 0 < snd x) ->
  length fs <= n ->
  (forall i, i < n -> unclipped fs (fac_to_var fs pots T (var_to_fac fs ev (text_bp fs pots T 0 ev m i)))) ->
  forall F j, F < length fs -> j < length (sf_configs (factor_at fs F)) ->
  config_marginal fs pots T ev xs F j = config_prob fs pots T (text_belief fs ev (text_bp fs pots T 0 ev m n)) (text_bp fs pots T 0 ev m n) F j.
Proof.
  intros HT Hac Hcfg Hcov Har Hnd Hxs Hpos Hn Hun.
  assert (Hfix : forall f u, f < length fs -> u < arity fs f ->
    upto_at fs (fac_to_var_soft fs pots T (var_to_fac fs ev (text_bp fs pots T 0 ev m n))) (text_bp fs pots T 0 ev m n) f u).
  { intros f u Hf Hu. rewrite <- fac_to_var_pos by exact HT. now apply converged. }
  intros F j HF Hj. now apply config_marginal_exact.
Qed.

Section Code.
  Context (vgs : list vgroup) (g : fgraph R) (T : R) (c : bp_ctx R).
  Hypothesis Hok : groups_ok vgs.
  Hypothesis Hr : reachable vgs g.
  Hypothesis Hwf : wf_groups (gr_groups g).
  Hypothesis Hbp : bp_of g T c.
  Context (a : bp_arrays R).
  Hypothesis Ha : arrays_of c a.
  Let fs := graph_factors 0%R (gr_groups g).
  Let pots := graph_pots (gr_groups g) (ba_log_potentials a).
  Let ne := length (enum_factors (gr_groups g)).
  Let lens := map snd (sf_edges fs).
  Let ev := read_ev (gr_vars_to_starts g) (ba_evidence a).
  Let xs := all_vars vgs.
  Let text := text_bp fs pots T 0 ev (read_msgs fs (ba_ftov_msgs a)).
  Context (n : nat).
  Hypothesis HT : T <> 0%R.
  Hypothesis Hpos : forall gr k, In gr vgs -> In k (vg_num_states gr) -> 0 < k.
  Hypothesis Hac : acyclic fs.
  Hypothesis Har : forall f, f < length fs -> 0 < arity fs f.
  Hypothesis Hn : length fs <= n.
  Hypothesis Hun : forall i, i < n -> unclipped fs (fac_to_var fs pots T (var_to_fac fs ev (text i))).
  Hypothesis Hsup : supported lens.
  Hypothesis Hfl : forall i, i <= n -> above_floor lens (unnormalised c a 0 i).
  Hypothesis Hir : forall i, i < n -> in_range fs pots ne T (var_to_fac fs ev (text i)).
  Let m := read_msgs fs (ba_ftov_msgs (run_bp c a n 0%R)).

  Lemma C73_joint_lemma : exists r b, get_beliefs c (run_bp c a n 0%R) = Ok r /\ belief_table vgs r b /\
    forall F j, F < length fs -> j < length (sf_configs (factor_at fs F)) -> config_marginal fs pots T ev xs F j = config_prob fs pots T b m F j.
  Proof.
    pose proof (sum_run_arrays vgs g T c Hok Hr Hwf Hbp a Ha n) as Ha'.
    destruct (tables_belief vgs g T c Hok Hr Hwf Hbp (run_bp c a n 0%R) Ha' Hpos) as [r [Er Tr]].
    exists r, (text_belief fs ev m). split; [exact Er|]. split; [exact Tr|].
    assert (Hm : msg_eq fs m (text n)) by (apply (C39_lemma vgs g T c Hok Hr Hwf Hbp a Ha 0%R n Hsup Hfl Hir)).
    assert (Hcov : covered fs). { destruct (Nat.eq_dec n 0) as [E|Hne]; [intros f u s Hf; lia|]. apply (in_range_covered g T Hwf a _ (Hir 0 ltac:(lia))). }
    assert (Hin : incl (sf_edges fs) xs) by exact (edges_in vgs g T c Hok Hr Hwf Hbp).
    intros F j HF Hj.
    rewrite (config_prob_ext fs pots T (text_belief fs ev m) (text_belief fs ev (text n)) m (text n) xs F j (graph_configs_ok (gr_groups g) Hwf) Hin); auto.
    - apply C73_text_lemma; auto; [now apply graph_configs_ok|now apply all_vars_NoDup|]. exact (var_some vgs Hok Hpos).
    - intros x s Hx Hs. symmetry. rewrite (text_belief_shift fs ev ev 0%R m (text n) x s); [lra|lra|exact Hm|exact Hs].
  Qed.
End Code.
Lemma C73_small_lemma vgs (g : fgraph R) T (c : bp_ctx R) : groups_ok vgs -> reachable vgs g -> wf_groups (gr_groups g) -> bp_of g T c ->
  forall a, arrays_of c a ->
  let fs := graph_factors 0%R (gr_groups g) in
  let pots := graph_pots (gr_groups g) (ba_log_potentials a) in
  let ev := read_ev (gr_vars_to_starts g) (ba_evidence a) in
  let lens := map snd (sf_edges fs) in
  (0 < T)%R ->
  (forall gr k, In gr vgs -> In k (vg_num_states gr) -> 0 < k) ->
  acyclic fs -> (forall f, f < length fs -> 0 < arity fs f) ->
  forall B P D K P' B' M' N', moderate fs pots (length (enum_factors (gr_groups g))) ev B P D K ->
  small fs T pots ev (read_msgs fs (ba_ftov_msgs a)) P' B' M' N' ->
  supported lens -> above_floor lens (ba_ftov_msgs a) ->
  forall n, length fs <= n ->
  exists r b, get_beliefs c (run_bp c a n 0%R) = Ok r /\ belief_table vgs r b /\
    forall F j, F < length fs -> j < length (sf_configs (factor_at fs F)) ->
      config_marginal fs pots T ev (all_vars vgs) F j = config_prob fs pots T b (read_msgs fs (ba_ftov_msgs (run_bp c a n 0%R))) F j.
Proof.
  intros Hok Hr Hwf Hbp a Ha fs pots ev lens HT Hpos Hac Har B P D K P' B' M' N' Hmod Hsm Hsup Hfl n Hn.
  destruct (small_given vgs g T c Hok Hr Hwf Hbp a Ha B P D K Hmod ltac:(lra) Hsup Hfl Hac P' B' M' N' Hsm) as [G1 [G2 G3]].
  apply (C73_joint_lemma vgs g T c Hok Hr Hwf Hbp a Ha n); auto. lra.
Qed.
