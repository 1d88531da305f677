(** * Exactness on acyclic graphs (towards C42). *)
From Verif Require Import NumPy Lists VGroup FGraph BPState BP SpecVGroup SpecFGraph SpecFactor SpecWiring SpecState SpecBP SpecText SpecBeliefs SpecTree.
From Verif Require Import LemVGroup LemFGraph LemState LemNum LemNorm LemVtoF LemText LemRun LemBeliefs LemShift LemPerm LemTree.
From Coq Require Import Reals Lra Lia Permutation Classical.
Local Open Scope nat_scope.

Lemma rsum_flat_map {X Y} (h : Y -> R) (g : X -> list Y) l : rsum (map h (flat_map g l)) = rsum (map (fun x => rsum (map h (g x))) l).
Proof. induction l as [|x l IH]; [reflexivity|]. cbn [flat_map map]. rewrite map_app, rsum_app, rsum_cons, IH. reflexivity. Qed.
Lemma rsum_minus {X} (f g : X -> R) l : rsum (map (fun x => f x - g x)%R l) = (rsum (map f l) - rsum (map g l))%R.
Proof. induction l as [|x l IH]; cbn [map]; rewrite ?rsum_nil, ?rsum_cons; [lra|]. rewrite IH. lra. Qed.
Lemma rsum_remove_slot (h : nat * nat -> R) l q : NoDup l -> In q l ->
  rsum (map h l) = (h q + rsum (map h (filter (fun p => negb (slot_eqb p q)) l)))%R.
Proof.
  intros Hnd Hi. rewrite (rsum_filter_split (fun p => slot_eqb p q)). f_equal.
  induction Hnd as [|p l Hp Hnd IH]; [destruct Hi|]. cbn [filter]. destruct (slot_eqb p q) eqn:E.
  - apply slot_eqb_eq in E. subst p. cbn [map]. rewrite rsum_cons. replace (filter (fun p => slot_eqb p q) l) with (@nil (nat * nat)); [cbn [map]; rewrite rsum_nil; lra|].
    symmetry. clear - Hp. induction l as [|p l IH]; [reflexivity|]. cbn [filter]. destruct (slot_eqb p q) eqn:E.
    + exfalso. apply Hp. left. now apply slot_eqb_eq.
    + apply IH. intros F. apply Hp. now right.
  - apply IH. destruct Hi as [->|Hi]; [|exact Hi]. rewrite (proj2 (slot_eqb_eq q q) eq_refl) in E. discriminate.
Qed.
(** A sum by classes. *)
Lemma rsum_pick (h : variable -> R) xs y : NoDup xs -> In y xs -> rsum (map (fun x => if var_eqb y x then h x else 0%R) xs) = h y.
Proof.
  induction 1 as [|x xs Hx Hnd IH]; intros Hi; [destruct Hi|]. cbn [map]. rewrite rsum_cons. destruct (var_eqb y x) eqn:E.
  - apply var_eqb_eq in E. subst y. rewrite (rsum_ext _ (fun _ => 0%R)).
    + rewrite rsum_const. lra.
    + intros z Hz. destruct (var_eqb x z) eqn:E; [|reflexivity]. apply var_eqb_eq in E. subst z. contradiction.
  - destruct Hi as [->|Hi]; [rewrite (proj2 (var_eqb_eq y y) eq_refl) in E; discriminate|]. rewrite IH by exact Hi. lra.
Qed.
Lemma rsum_classes {Q} (key : Q -> variable) (h : variable -> Q -> R) xs l : NoDup xs -> (forall q, In q l -> In (key q) xs) ->
  rsum (map (fun x => rsum (map (h x) (filter (fun q => var_eqb (key q) x) l))) xs) = rsum (map (fun q => h (key q) q) l).
Proof.
  intros Hnd. induction l as [|q l IH]; intros Hl.
  - cbn [filter map]. rewrite rsum_const, rsum_nil. lra.
  - cbn [map]. rewrite rsum_cons, <- IH by (intros p Hp; apply Hl; now right).
    rewrite <- (rsum_pick (fun x => h x q) xs (key q) Hnd (Hl q (or_introl eq_refl))), <- rsum_plus. apply rsum_ext. intros x _. cbn [filter].
    destruct (var_eqb (key q) x); cbn [map]; rewrite ?rsum_cons; lra.
Qed.
Lemma NoDup_incl_perm (l xs : list variable) : NoDup l -> incl l xs -> exists o, Permutation xs (l ++ o).
Proof.
  revert xs. induction l as [|x l IH]; intros xs Hnd Hi; [now exists xs|]. apply NoDup_cons_iff in Hnd. destruct Hnd as [Hx Hnd].
  assert (Hin : In x xs) by (apply Hi; now left). apply in_split in Hin. destruct Hin as [a [b ->]].
  destruct (IH (a ++ b) Hnd) as [o Ho].
  - intros y Hy. assert (In y (a ++ x :: b)) by (apply Hi; now right). apply in_or_app. apply in_app_or in H. cbn in H.
    destruct H as [H|[E|H]]; [now left| |now right]. subst y. contradiction.
  - exists o. cbn [app]. apply Permutation_sym, Permutation_cons_app, Permutation_sym. exact Ho.
Qed.

(** ** Beliefs of variables and factors *)
Section Beliefs.
  Context {A : Type} (fs : list (sfactor A)) (pots : nat -> nat -> R).
  Context (ev : variable -> nat -> R) (m : msg) (xs : list variable).
  Hypothesis Hnd : NoDup xs.
  Hypothesis Hxs : incl (sf_edges fs) xs.
  Let v := var_to_fac fs ev m.
  Let b := text_belief fs ev m.

  Lemma vtof_belief f u s : f < length fs -> u < arity fs f -> v f u s = (b (var_at fs f u) s - m f u s)%R.
  Proof.
    intros Hf Hu. unfold v, b, var_to_fac, text_belief.
    rewrite (rsum_remove_slot (fun fu => m (fst fu) (snd fu) s) (slots_of fs (var_at fs f u)) (f, u)); [cbn [fst snd]; lra| |].
    - unfold slots_of. apply NoDup_filter, NoDup_slots.
    - now apply In_slots_of.
  Qed.
  Lemma score_but_split f c u : f < length fs -> u < arity fs f ->
    score fs pots v f c = (score_but fs pots v f c u + v f u (config_at_slot fs f c u))%R.
  Proof.
    intros Hf Hu. unfold score, score_but.
    rewrite (rsum_remove (fun u => v f u (config_at_slot fs f c u)) (seq 0 (arity fs f)) u); [lra|apply seq_NoDup|apply in_seq; lia].
  Qed.
  (** The score of an assignment in terms of beliefs. *)
  Lemma score_beliefs st cf : consistent fs st cf ->
    joint_score fs pots ev xs st cf =
      (rsum (map (fun x => b x (st x)) xs)
       + rsum (map (fun f => score fs pots v f (cf f) - rsum (map (fun u => b (var_at fs f u) (st (var_at fs f u))) (seq 0 (arity fs f)))) (seq 0 (length fs))))%R.
  Proof.
    intros Hc. unfold joint_score.
    assert (E1 : rsum (map (fun x => b x (st x)) xs) =
      (rsum (map (fun x => ev x (st x)) xs) + rsum (map (fun f => rsum (map (fun u => m f u (st (var_at fs f u))) (seq 0 (arity fs f)))) (seq 0 (length fs))))%R).
    { unfold b, text_belief. rewrite rsum_plus. f_equal. unfold slots_of.
      rewrite (rsum_classes (fun fu => var_at fs (fst fu) (snd fu)) (fun x fu => m (fst fu) (snd fu) (st x)) xs (slots fs) Hnd).
      - unfold slots. rewrite rsum_flat_map. apply rsum_ext. intros f _. rewrite map_map. reflexivity.
      - intros [f u] Hq. apply In_slots in Hq. cbn [fst snd] in *. apply Hxs. now apply var_in_edges. }
    assert (E2 : rsum (map (fun f => score fs pots v f (cf f) - rsum (map (fun u => b (var_at fs f u) (st (var_at fs f u))) (seq 0 (arity fs f))))%R (seq 0 (length fs)))
      = (rsum (map (fun f => pots f (cf f)) (seq 0 (length fs))) - rsum (map (fun f => rsum (map (fun u => m f u (st (var_at fs f u))) (seq 0 (arity fs f)))) (seq 0 (length fs))))%R).
    { rewrite <- rsum_minus. apply rsum_ext. intros f Hf. apply in_seq in Hf. destruct (Hc f) as [_ Hst]; [lia|]. unfold score.
      assert (E : rsum (map (fun u => v f u (config_at_slot fs f (cf f) u)) (seq 0 (arity fs f)))
        = (rsum (map (fun u => b (var_at fs f u) (st (var_at fs f u))) (seq 0 (arity fs f))) - rsum (map (fun u => m f u (st (var_at fs f u))) (seq 0 (arity fs f))))%R); [|lra].
      rewrite <- rsum_minus. apply rsum_ext. intros u Hu. apply in_seq in Hu. rewrite vtof_belief by lia. now rewrite Hst by lia. }
    rewrite E1, E2. lra.
  Qed.

  (** Along an order of the factors every other variable occurs once. *)
  Definition excess (q : nat * nat) (c : nat) : R := (score fs pots v (fst q) c - b (svar fs q) (config_at_slot fs (fst q) c (snd q)))%R.
  Definition kids (q : nat * nat) : list variable := map (var_at fs (fst q)) (filter (fun u => negb (u =? snd q)) (seq 0 (arity fs (fst q)))).
  Lemma In_kids q x : In x (kids q) <-> exists u, u < arity fs (fst q) /\ u <> snd q /\ var_at fs (fst q) u = x.
  Proof.
    unfold kids. rewrite in_map_iff. split; intros [u Hu]; exists u; rewrite filter_In, in_seq in *.
    - destruct Hu as [E [Hu Hne]]. split; [lia|]. split; [|exact E]. destruct (Nat.eqb_spec u (snd q)); [discriminate|assumption].
    - destruct Hu as [Hu [Hne E]]. split; [exact E|]. split; [lia|]. destruct (Nat.eqb_spec u (snd q)); [contradiction|reflexivity].
  Qed.
  Lemma good_kids r ord : good fs r ord -> NoDup (flat_map kids ord) /\ ~ In r (flat_map kids ord).
  Proof.
    induction ord as [|q ord IH]; intros Hg; [split; [constructor|intros []]|]. cbn [good] in Hg. destruct Hg as [Hg [Hf [Hok Hl]]].
    destruct (IH Hg) as [IH1 IH2]. cbn [flat_map]. split.
    - assert (N : NoDup (kids q)).
      { unfold kids. apply NoDup_map_on; [apply NoDup_filter, seq_NoDup|]. intros u w Hu Hw E. apply filter_In in Hu, Hw. destruct Hu as [Hu Hu'], Hw as [Hw Hw'].
        apply in_seq in Hu, Hw. destruct (Nat.eqb_spec w (snd q)) as [|Hne]; [discriminate|]. destruct (Hl w ltac:(lia) Hne) as [_ H].
        specialize (H (fst q, u)). assert (F : (fst q, u) = (fst q, w)) by (apply H; [split; [now left|cbn; lia]|exact E]). now injection F. }
      revert N. generalize (kids q) (fun x => proj1 (In_kids q x)). intros ks Hks N. induction ks as [|x ks IHk]; [exact IH1|].
      apply NoDup_cons_iff in N. destruct N as [Nx N]. cbn [app]. constructor; [|apply IHk; [intros y Hy; apply Hks; now right|exact N]].
      intros Hi. apply in_app_or in Hi. destruct Hi as [Hi|Hi]; [contradiction|]. destruct (Hks x (or_introl eq_refl)) as [u [Hu [Hne E]]].
      destruct (Hl u Hu Hne) as [_ H]. apply in_flat_map in Hi. destruct Hi as [p [Hp Hx]]. apply In_kids in Hx. destruct Hx as [w [Hw [_ Ew]]].
      assert (F : (fst p, w) = (fst q, u)).
      { apply H; [split; [right; exact (in_map fst ord p Hp)|exact Hw]|]. unfold svar. cbn [fst snd]. congruence. }
      apply Hf. injection F as F1 F2. rewrite <- F1. exact (in_map fst ord p Hp).
    - intros Hi. apply in_app_or in Hi. destruct Hi as [Hi|Hi]; [|contradiction]. apply In_kids in Hi. destruct Hi as [u [Hu [Hne E]]]. now apply (Hl u Hu Hne).
  Qed.
  Lemma kids_vars q x : fst q < length fs -> In x (kids q) -> In x xs.
  Proof. intros Hf Hi. apply In_kids in Hi. destruct Hi as [u [Hu [_ <-]]]. apply Hxs. now apply var_in_edges. Qed.

  Lemma score_order st cf r ord others : consistent fs st cf -> (forall q, In q ord -> snd q < arity fs (fst q)) ->
    Permutation (map fst ord) (seq 0 (length fs)) -> Permutation xs (r :: flat_map kids ord ++ others) ->
    joint_score fs pots ev xs st cf =
      (b r (st r) + rsum (map (fun x => b x (st x)) others) + rsum (map (fun q => excess q (cf (fst q))) ord))%R.
  Proof.
    intros Hc Hq Hp Hx. rewrite score_beliefs by exact Hc.
    rewrite (rsum_perm _ _ (Permutation_map (fun x => b x (st x)) Hx)), <- (rsum_perm _ _ (Permutation_map _ Hp)), map_map.
    cbn [map]. rewrite rsum_cons, map_app, rsum_app, rsum_flat_map.
    assert (E : rsum (map (fun q => score fs pots v (fst q) (cf (fst q)) - rsum (map (fun u => b (var_at fs (fst q) u) (st (var_at fs (fst q) u))) (seq 0 (arity fs (fst q)))))%R ord)
      = (rsum (map (fun q => excess q (cf (fst q))) ord) - rsum (map (fun x => rsum (map (fun x0 => b x0 (st x0)) (kids x))) ord))%R); [|lra].
    rewrite <- rsum_minus. apply rsum_ext. intros q Hi. unfold excess, kids. rewrite map_map.
    assert (Hf : fst q < length fs). { assert (H : In (fst q) (seq 0 (length fs))) by (apply (Permutation_in _ Hp), in_map, Hi). apply in_seq in H. lia. }
    rewrite (rsum_remove (fun u => b (var_at fs (fst q) u) (st (var_at fs (fst q) u))) _ (snd q)); [|apply seq_NoDup|apply in_seq; specialize (Hq q Hi); lia].
    destruct (Hc (fst q) Hf) as [_ Hst]. rewrite (Hst (snd q) (Hq q Hi)). unfold svar. lra.
  Qed.
End Beliefs.

(** ** Exact max-marginals *)
Section Exact.
  Context {A : Type} (fs : list (sfactor A)) (pots : nat -> nat -> R).
  Context (ev : variable -> nat -> R) (m : msg) (xs : list variable).
  Hypothesis Hnd : NoDup xs.
  Hypothesis Hxs : incl (sf_edges fs) xs.
  Hypothesis Hpos : forall x, In x xs -> 0 < snd x.
  Hypothesis Hcfg : configs_ok fs.
  Hypothesis Hcov : covered fs.
  Let v := var_to_fac fs ev m.
  Let b := text_belief fs ev m.
  Hypothesis Hfix : forall f u, f < length fs -> u < arity fs f -> upto_at fs (fac_to_var_max fs pots v) m f u.
  Let ex := excess fs pots ev m.

  (** The largest excess does not depend on the state. *)
  Lemma excess_max q : fst q < length fs -> snd q < arity fs (fst q) -> exists k : R,
    (forall c, c < length (sf_configs (factor_at fs (fst q))) -> (ex q c <= k)%R) /\
    (forall s, s < snd (svar fs q) -> exists c, In c (choices fs (fst q) (snd q) s) /\ ex q c = k).
  Proof.
    destruct q as [f u]. cbn [fst snd]. intros Hf Hu. destruct (Hfix f u Hf Hu) as [k Ek]. exists k.
    assert (E : forall c, ex (f, u) c = (score_but fs pots v f c u - m f u (config_at_slot fs f c u))%R).
    { intros c. unfold ex, excess. cbn [fst snd]. unfold svar. cbn [fst snd]. rewrite (score_but_split fs pots ev m f c u Hf Hu).
      rewrite (vtof_belief fs ev m f u _ Hf Hu). fold v. lra. }
    split.
    - intros c Hc. rewrite E. assert (Hs := config_ok fs Hcfg f c u Hf Hc Hu). specialize (Ek _ Hs).
      assert (L : (score_but fs pots v f c u <= fac_to_var_max fs pots v f u (config_at_slot fs f c u))%R); [|lra].
      unfold fac_to_var_max. apply rmaxs_ub. apply (in_map (fun c => score_but fs pots v f c u)). now apply choice_iff.
    - intros s Hs. unfold svar in Hs. cbn [fst snd] in Hs. specialize (Ek s Hs).
      assert (Hi : In (fac_to_var_max fs pots v f u s) (map (fun c => score_but fs pots v f c u) (choices fs f u s))).
      { apply rmaxs_In. specialize (Hcov f u s Hf Hu Hs). destruct (choices fs f u s); [contradiction|discriminate]. }
      apply in_map_iff in Hi. destruct Hi as [c [Ec Hc]]. exists c. split; [exact Hc|]. rewrite E. apply choice_iff in Hc. rewrite (proj2 Hc). lra.
  Qed.
  Lemma excess_fun (ord : list (nat * nat)) : (forall q, In q ord -> fst q < length fs /\ snd q < arity fs (fst q)) -> exists K : nat * nat -> R,
    forall q, In q ord -> (forall c, c < length (sf_configs (factor_at fs (fst q))) -> (ex q c <= K q)%R) /\
      (forall s, s < snd (svar fs q) -> exists c, In c (choices fs (fst q) (snd q) s) /\ ex q c = K q).
  Proof.
    induction ord as [|q ord IH]; intros H; [exists (fun _ => 0%R); intros q []|].
    destruct IH as [K HK]; [intros p Hp; apply H; now right|]. destruct (H q (or_introl eq_refl)) as [H1 H2]. destruct (excess_max q H1 H2) as [k Hk].
    exists (fun p => if slot_eqb p q then k else K p). intros p Hp. destruct (slot_eqb p q) eqn:E; [apply slot_eqb_eq in E; subst p; exact Hk|].
    apply HK. destruct Hp as [->|Hp]; [|exact Hp]. rewrite (proj2 (slot_eqb_eq p p) eq_refl) in E. discriminate.
  Qed.

  (** Any states of the other variables extend to an assignment of largest excess. *)
  Definition set_kids (q : nat * nat) (c : nat) (st : variable -> nat) : variable -> nat := fun x =>
    match find (fun u => negb (u =? snd q) && var_eqb (var_at fs (fst q) u) x) (seq 0 (arity fs (fst q))) with
    | Some u => config_at_slot fs (fst q) c u
    | None => st x
    end.
  Lemma set_kids_other q c st x : ~ In x (kids fs q) -> set_kids q c st x = st x.
  Proof.
    intros Hx. unfold set_kids. destruct (find _ _) as [u|] eqn:E; [|reflexivity]. exfalso. apply Hx. apply find_some in E. destruct E as [Hu E].
    apply in_seq in Hu. apply Bool.andb_true_iff in E. destruct E as [E1 E2]. apply var_eqb_eq in E2. apply In_kids. exists u. split; [lia|]. split; [|exact E2].
    destruct (Nat.eqb_spec u (snd q)); [discriminate|assumption].
  Qed.
  Lemma extend_order r K (ord : list (nat * nat)) st0 : good fs r ord ->
    (forall q, In q ord -> fst q < length fs) ->
    (forall q, In q ord -> forall s, s < snd (svar fs q) -> exists c, In c (choices fs (fst q) (snd q) s) /\ ex q c = K q) ->
    (forall x, In x xs -> st0 x < snd x) ->
    exists st cf, (forall x, ~ In x (flat_map (kids fs) ord) -> st x = st0 x) /\ (forall x, In x xs -> st x < snd x) /\
      forall q, In q ord -> cf (fst q) < length (sf_configs (factor_at fs (fst q))) /\ ex q (cf (fst q)) = K q /\
        forall u, u < arity fs (fst q) -> config_at_slot fs (fst q) (cf (fst q)) u = st (var_at fs (fst q) u).
  Proof.
    intros Hg. induction ord as [|q ord IH]; intros Hf HK Hst; [exists st0, (fun _ => 0); split; [reflexivity|]; split; [exact Hst|intros q []]|].
    cbn [good] in Hg. destruct Hg as [Hg [Hq [Hok Hl]]]. destruct IH as [st [cf [I1 [I2 I3]]]]; [exact Hg|intros p Hp; apply Hf; now right|intros p Hp; apply HK; now right|exact Hst|].
    assert (Hfq : fst q < length fs) by (apply Hf; now left). destruct Hok as [_ Huq].
    assert (Hsq : st (svar fs q) < snd (svar fs q)) by (apply I2, Hxs; now apply var_in_edges).
    destruct (HK q (or_introl eq_refl) _ Hsq) as [c [Hc Ec]]. apply choice_iff in Hc. destruct Hc as [Hc Es].
    assert (Hparent : ~ In (svar fs q) (kids fs q)).
    { intros F. apply In_kids in F. destruct F as [u [Hu [Hne E]]]. destruct (Hl u Hu Hne) as [_ H].
      assert (F : q = (fst q, u)) by (apply H; [split; [now left|exact Huq]|symmetry; exact E]). apply Hne. rewrite F. reflexivity. }
    assert (Hkid : forall u, u < arity fs (fst q) -> u <> snd q -> set_kids q c st (var_at fs (fst q) u) = config_at_slot fs (fst q) c u).
    { intros u Hu Hne. unfold set_kids. destruct (find _ _) as [w|] eqn:E.
      - apply find_some in E. destruct E as [Hw E]. apply in_seq in Hw. apply Bool.andb_true_iff in E. destruct E as [_ E2]. apply var_eqb_eq in E2.
        destruct (Hl u Hu Hne) as [_ H]. assert (F : (fst q, w) = (fst q, u)) by (apply H; [split; [now left|cbn; lia]|exact E2]). now injection F as ->.
      - exfalso. assert (F := find_none _ _ E u ltac:(apply in_seq; lia)). cbn beta in F. rewrite (proj2 (var_eqb_eq _ _) eq_refl) in F. destruct (Nat.eqb_spec u (snd q)); [contradiction|discriminate]. }
    exists (set_kids q c st), (fun f => if f =? fst q then c else cf f). split; [|split].
    - intros x Hx. cbn [flat_map] in Hx. rewrite set_kids_other by (intros F; apply Hx, in_or_app; now left). apply I1. intros F. apply Hx, in_or_app. now right.
    - intros x Hx. destruct (classic (In x (kids fs q))) as [Hi|Hi].
      + apply In_kids in Hi. destruct Hi as [u [Hu [Hne <-]]]. rewrite Hkid by assumption. now apply (config_ok fs).
      + rewrite set_kids_other by exact Hi. now apply I2.
    - intros p [<-|Hp].
      + rewrite Nat.eqb_refl. split; [exact Hc|]. split; [exact Ec|]. intros u Hu. destruct (Nat.eq_dec u (snd q)) as [->|Hne].
        * rewrite Es. symmetry. apply set_kids_other. exact Hparent.
        * symmetry. now apply Hkid.
      + destruct (I3 p Hp) as [J1 [J2 J3]]. destruct (Nat.eqb_spec (fst p) (fst q)) as [E|Hne].
        { exfalso. apply Hq. rewrite <- E. exact (in_map fst ord p Hp). }
        split; [exact J1|]. split; [exact J2|]. intros u Hu. rewrite (J3 u Hu). symmetry. apply set_kids_other. intros F. apply In_kids in F.
        destruct F as [w [Hw [Hnw E]]]. destruct (Hl w Hw Hnw) as [_ H]. assert (F : (fst p, u) = (fst q, w)).
        { apply H; [split; [right; exact (in_map fst ord p Hp)|exact Hu]|symmetry; exact E]. }
        injection F as F1 F2. contradiction.
  Qed.

  Lemma exact_lemma r : acyclic fs -> (forall f, f < length fs -> 0 < arity fs f) -> In r xs ->
    exists k : R, forall s, s < snd r -> max_marginal fs pots ev xs r s (b r s + k)%R.
  Proof.
    intros Hac Har Hr. destruct (order_exists fs r Hac Har (length fs) (seq 0 (length fs))) as [ord [Hg Hp]];
      [apply seq_length|apply seq_NoDup|intros f Hf; apply in_seq in Hf; lia|].
    assert (Hlt : forall q, In q ord -> fst q < length fs).
    { intros q Hq. assert (H : In (fst q) (seq 0 (length fs))) by (apply (Permutation_in _ Hp), in_map, Hq). apply in_seq in H. lia. }
    assert (Hua : forall q, In q ord -> snd q < arity fs (fst q)).
    { clear - Hg. induction ord as [|p ord IH]; intros q Hq; [destruct Hq|]. cbn [good] in Hg. destruct Hg as [H1 [_ [[_ H2] _]]].
      destruct Hq as [<-|Hq]; [exact H2|now apply IH]. }
    destruct (excess_fun ord) as [K HK]; [intros q Hq; split; [now apply Hlt|now apply Hua]|].
    destruct (good_kids fs r ord Hg) as [N1 N2].
    destruct (NoDup_incl_perm (r :: flat_map (kids fs) ord) xs) as [others Ho].
    { now constructor. }
    { intros x [<-|Hx]; [exact Hr|]. apply in_flat_map in Hx. destruct Hx as [q [Hq Hx]]. apply (kids_vars fs xs Hxs q); [now apply Hlt|exact Hx]. }
    cbn [app] in Ho. set (best := fun x => rmaxs (map (b x) (seq 0 (snd x)))).
    assert (Hoth : forall x, In x others -> In x xs) by (intros x Hx; apply (Permutation_in _ (Permutation_sym Ho)); right; apply in_or_app; now right).
    exists (rsum (map best others) + rsum (map K ord))%R. intros s Hs. split.
    - (* attained *)
      assert (Hb : forall x, In x xs -> exists t, t < snd x /\ b x t = best x).
      { intros x Hx. assert (Hi : In (best x) (map (b x) (seq 0 (snd x)))).
        { apply rmaxs_In. specialize (Hpos x Hx). destruct (snd x); [lia|discriminate]. }
        apply in_map_iff in Hi. destruct Hi as [t [Et Ht]]. apply in_seq in Ht. exists t. split; [lia|exact Et]. }
      assert (Hst0 : forall l, incl l xs -> exists st0 : variable -> nat, forall x, In x l -> st0 x < snd x /\ (x = r -> st0 x = s) /\ (x <> r -> b x (st0 x) = best x)).
      { induction l as [|x l IH]; intros Hl; [exists (fun _ => 0); intros x []|]. destruct IH as [st0 H0]; [intros y Hy; apply Hl; now right|].
        destruct (Hb x) as [t [Ht Et]]; [apply Hl; now left|]. exists (fun y => if var_eqb y x then (if var_eqb x r then s else t) else st0 y). intros y Hy.
        destruct (var_eqb y x) eqn:Eyx.
        - apply var_eqb_eq in Eyx. subst y. destruct (var_eqb x r) eqn:Exr.
          + apply var_eqb_eq in Exr. subst x. repeat split; [exact Hs|intros F; now contradict F].
          + split; [exact Ht|]. split; [intros ->; rewrite (proj2 (var_eqb_eq r r) eq_refl) in Exr; discriminate|intros _; exact Et].
        - apply H0. destruct Hy as [->|Hy]; [rewrite (proj2 (var_eqb_eq y y) eq_refl) in Eyx; discriminate|exact Hy]. }
      destruct (Hst0 xs (incl_refl xs)) as [st0 H0].
      destruct (extend_order r K ord st0 Hg Hlt (fun q Hq => proj2 (HK q Hq)) (fun x Hx => proj1 (H0 x Hx))) as [st [cf [I1 [I2 I3]]]].
      assert (Hc : consistent fs st cf).
      { intros f Hf. assert (Hi : In f (map fst ord)) by (apply (Permutation_in _ (Permutation_sym Hp)), in_seq; lia).
        apply in_map_iff in Hi. destruct Hi as [q [<- Hq]]. destruct (I3 q Hq) as [J1 [_ J3]]. now split. }
      assert (Hsr : st r = s) by (rewrite I1 by exact N2; now apply (H0 r Hr)).
      exists st, cf. split; [now split|]. split; [exact Hsr|].
      rewrite (score_order fs pots ev m xs Hnd Hxs st cf r ord others Hc Hua Hp Ho), Hsr. fold b.
      assert (E1 : rsum (map (fun x => b x (st x)) others) = rsum (map best others)).
      { apply rsum_ext. intros x Hx. assert (Hnk : ~ In x (r :: flat_map (kids fs) ord)).
        { assert (Hd : NoDup ((r :: flat_map (kids fs) ord) ++ others)) by (apply (Permutation_NoDup Ho Hnd)).
          intros F. clear - Hd F Hx. induction (r :: flat_map (kids fs) ord) as [|y l IH]; [destruct F|]. cbn [app] in Hd. apply NoDup_cons_iff in Hd.
          destruct F as [->|F]; [apply (proj1 Hd), in_or_app; now right|now apply IH]. }
        rewrite I1 by (intros F; apply Hnk; now right). apply (H0 x (Hoth x Hx)). intros ->. apply Hnk. now left. }
      assert (E2 : rsum (map (fun q => excess fs pots ev m q (cf (fst q))) ord) = rsum (map K ord)) by (apply rsum_ext; intros q Hq; apply (I3 q Hq)).
      rewrite E1, E2. lra.
    - (* upper bound *)
      intros st cf [Hst Hc] Hsr. rewrite (score_order fs pots ev m xs Hnd Hxs st cf r ord others Hc Hua Hp Ho), Hsr. fold b.
      assert (L1 : (rsum (map (fun x => b x (st x)) others) <= rsum (map best others))%R).
      { apply rsum_le. intros x Hx. unfold best. apply rmaxs_ub, in_map, in_seq. specialize (Hst x (Hoth x Hx)). lia. }
      assert (L2 : (rsum (map (fun q => excess fs pots ev m q (cf (fst q))) ord) <= rsum (map K ord))%R).
      { apply rsum_le. intros q Hq. apply (proj1 (HK q Hq)). apply (Hc (fst q) (Hlt q Hq)). }
      lra.
  Qed.
End Exact.

(** ** Textbook belief propagation *)
Lemma fac_to_var_0 {A} (fs : list (sfactor A)) pots v : fac_to_var fs pots 0 v = fac_to_var_max fs pots v.
Proof. unfold fac_to_var. destruct (Req_EM_T 0 0); [reflexivity|contradiction]. Qed.
Lemma C42_text_lemma {A} (fs : list (sfactor A)) pots ev xs m n :
  acyclic fs -> configs_ok fs -> covered fs -> (forall f, f < length fs -> 0 < arity fs f) ->
  NoDup xs -> incl (sf_edges fs) xs -> (forall x, In x xs -> 0 < snd x) ->
  length fs <= n ->
  (forall i, i < n -> unclipped fs (fac_to_var_max fs pots (var_to_fac fs ev (text_bp fs pots 0 0 ev m i)))) ->
  forall x, In x xs -> exists k : R, forall s, s < snd x ->
    max_marginal fs pots ev xs x s (text_belief fs ev (text_bp fs pots 0 0 ev m n) x s + k)%R.
Proof.
  intros Hac Hcfg Hcov Har Hnd Hxs Hpos Hn Hun x Hx. apply exact_lemma; auto. intros f u Hf Hu.
  rewrite <- fac_to_var_0. apply converged; auto. intros i Hi. rewrite fac_to_var_0. now apply Hun.
Qed.
Lemma C42_stable_lemma {A} (fs : list (sfactor A)) pots T ev m n n' :
  acyclic fs -> configs_ok fs -> covered fs -> length fs <= n <= n' ->
  (forall i, i < n' -> unclipped fs (fac_to_var fs pots T (var_to_fac fs ev (text_bp fs pots T 0 ev m i)))) ->
  (forall f u, f < length fs -> u < arity fs f -> 0 < snd (var_at fs f u)) ->
  msg_eq fs (text_bp fs pots T 0 ev m n') (text_bp fs pots T 0 ev m n).
Proof.
  intros Hac Hcfg Hcov Hn Hun Hpos f u s Hf Hu Hs.
  destruct (stable fs pots Hcfg Hcov Hac T ev m n' Hun f u n' n Hf Hu ltac:(lia) ltac:(lia)) as [k Ek].
  assert (M : forall j, exists t, t < snd (var_at fs f u) /\ text_bp fs pots T 0 ev m j f u t = 0%R /\ forall t, t < snd (var_at fs f u) -> (text_bp fs pots T 0 ev m j f u t <= 0)%R).
  { intros j. assert (Hx : exists q, text_bp fs pots T 0 ev m j = normal fs q) by (destruct j; eexists; reflexivity). destruct Hx as [q ->]. unfold normal.
    set (l := map (q f u) (seq 0 (snd (var_at fs f u)))). assert (Hl : In (rmaxs l) l).
    { apply rmaxs_In. unfold l. specialize (Hpos f u Hf Hu). destruct (snd (var_at fs f u)); [lia|discriminate]. }
    unfold l in Hl at 2. apply in_map_iff in Hl. destruct Hl as [t [Et Ht]]. apply in_seq in Ht. exists t. split; [lia|]. split.
    - rewrite Et. rewrite Rmax_right; lra.
    - intros w Hw. apply Rmax_lub; [lra|]. assert (q f u w <= rmaxs l)%R; [|lra]. apply rmaxs_ub. unfold l. apply in_map, in_seq. lia. }
  destruct (M n) as [t [Ht [Z0 L0]]]. destruct (M n') as [t' [Ht' [Z1 L1]]]. assert (k = 0)%R; [|rewrite Ek by exact Hs; lra].
  pose proof (Ek t Ht). pose proof (Ek t' Ht'). pose proof (L0 t' Ht'). pose proof (L1 t Ht). lra.
Qed.

(** ** The code *)
Section Code.
  Context (vgs : list vgroup) (g : fgraph R) (c : bp_ctx R).
  Hypothesis Hok : groups_ok vgs.
  Hypothesis Hr : reachable vgs g.
  Hypothesis Hwf : wf_groups (gr_groups g).
  Hypothesis Hbp : bp_of g 0%R c.
  Context (a : bp_arrays R).
  Hypothesis Ha : arrays_of c a.
  Let fs := graph_factors 0%R (gr_groups g).
  Let pots := graph_pots (gr_groups g) (ba_log_potentials a).
  Let ne := length (enum_factors (gr_groups g)).
  Let lens := map snd (sf_edges fs).
  Let ev := read_ev (gr_vars_to_starts g) (ba_evidence a).
  Let xs := all_vars vgs.
  Let text := text_bp fs pots 0 0 ev (read_msgs fs (ba_ftov_msgs a)).
  Context (n : nat).
  Hypothesis Hpos : forall gr k, In gr vgs -> In k (vg_num_states gr) -> 0 < k.
  Hypothesis Hac : acyclic fs.
  Hypothesis Har : forall f, f < length fs -> 0 < arity fs f.
  Hypothesis Hn : length fs <= n.
  Hypothesis Hun : forall i, i < n -> unclipped fs (fac_to_var_max fs pots (var_to_fac fs ev (text i))).
  Hypothesis Hsup : supported lens.
  Hypothesis Hfl : forall i, i <= n -> above_floor lens (unnormalised c a 0 i).
  Hypothesis Hir : forall i, i < n -> in_range fs pots ne 0 (var_to_fac fs ev (text i)).
  Let belief := text_belief fs ev (read_msgs fs (ba_ftov_msgs (run_bp c a n 0%R))).

  Lemma xs_pos x : In x xs -> 0 < snd x.
  Proof.
    unfold xs, all_vars. intros Hx. apply in_concat in Hx. destruct Hx as [l [Hl Hx]]. apply in_map_iff in Hl. destruct Hl as [gr [<- Hg]].
    apply (Hpos gr); [exact Hg|]. rewrite <- (vg_variables_snd gr) by now apply (groups_ok_wf vgs). now apply in_map.
  Qed.
  Lemma run_arrays : arrays_of c (run_bp c a n 0%R).
  Proof. destruct Ha as [A1 [A2 A3]]. split; [exact A1|]. split; [|exact A3]. 
    destruct (run_length vgs g 0%R c Hok Hr Hwf Hbp a Ha 0%R n) as [L _]. rewrite L. destruct (arrays_lengths vgs g 0%R c Hok Hr Hwf Hbp a Ha) as [_ [L2 _]]. congruence. Qed.
  Lemma tree_covered : 0 < n -> covered fs.
  Proof. intros H. apply (in_range_covered g 0%R Hwf a _ (Hir 0 H)). Qed.
  Lemma tree_exact x : In x xs -> exists k : R, forall s, s < snd x -> max_marginal fs pots ev xs x s (belief x s + k)%R.
  Proof.
    intros Hx. assert (Hm : msg_eq fs (read_msgs fs (ba_ftov_msgs (run_bp c a n 0%R))) (text n)) by (apply (C39_lemma vgs g 0%R c Hok Hr Hwf Hbp a Ha 0%R n Hsup Hfl Hir)).
    assert (Hcov : covered fs). { destruct (Nat.eq_dec n 0) as [E|Hne]; [|apply tree_covered; lia]. intros f u s Hf. lia. }
    destruct (C42_text_lemma fs pots ev xs (read_msgs fs (ba_ftov_msgs a)) n Hac (graph_configs_ok (gr_groups g) Hwf) Hcov Har (all_vars_NoDup vgs Hok)) with (x := x) as [k Hk]; auto.
    - intros y Hy. apply (edges_vars vgs g 0%R c Hok Hr Hwf Hbp y Hy).
    - exact xs_pos.
    - exists k. intros s Hs. replace (belief x s + k)%R with (text_belief fs ev (text n) x s + k)%R; [now apply Hk|]. f_equal. unfold belief.
      rewrite (text_belief_shift fs ev ev 0%R (read_msgs fs (ba_ftov_msgs (run_bp c a n 0%R))) (text n) x s); [lra|lra|exact Hm|exact Hs].
  Qed.
  Lemma C42_beliefs_lemma : exists b, get_beliefs c (run_bp c a n 0%R) = Ok b /\ map fst b = vgs /\
    forall gr, In gr vgs -> exists d, dget vg_eqb gr b = Some d /\ per_state_shape gr d /\
      forall i x, nth_error (vg_variables gr) i = Some x -> exists (mm : nat -> R) (k : R),
        (forall s, s < snd x -> max_marginal fs pots ev xs x s (mm s)) /\
        row gr d i = map (fun s => Fin (mm s + k)%R) (seq 0 (snd x)) ++ repeat NInf (state_axis gr i - snd x).
  Proof.
    destruct (C33_lemma vgs g 0%R c Hok Hr Hwf Hbp (run_bp c a n 0%R) run_arrays Hpos) as [b [Eb [Kb Db]]]. exists b. split; [exact Eb|]. split; [exact Kb|].
    intros gr Hg. destruct (Db gr Hg) as [d [Ed [Sd Rd]]]. exists d. split; [exact Ed|]. split; [exact Sd|]. intros i x Hi.
    assert (Hx : In x xs).
    { unfold xs, all_vars. apply in_concat. exists (vg_variables gr). split; [now apply in_map|]. eapply nth_error_In. exact Hi. }
    destruct (tree_exact x Hx) as [k Hk]. exists (fun s => belief x s + k)%R, (- k)%R. split; [exact Hk|]. rewrite (Rd i x Hi).
    f_equal. apply map_ext. intros s. apply f_equal. change (belief x s = (belief x s + k + - k)%R). lra.
  Qed.
  (** Decoded states belong to assignments of largest score. *)
  Lemma C42_map_lemma : (forall gr, In gr vgs -> one_state gr = false) ->
    exists b q, get_beliefs c (run_bp c a n 0%R) = Ok b /\ decode_map_states b = Ok q /\ map fst q = vgs /\
    forall gr, In gr vgs -> exists d, dget vg_eqb gr q = Some d /\ per_var_shape gr d /\
      forall i x, nth_error (vg_variables gr) i = Some x -> exists s, cell gr d i = [s] /\
        exists st cf, joint fs xs st cf /\ st x = s /\
          forall st' cf', joint fs xs st' cf' -> (joint_score fs pots ev xs st' cf' <= joint_score fs pots ev xs st cf)%R.
  Proof.
    intros Hone. destruct (C34_lemma vgs g 0%R c Hok Hr Hwf Hbp (run_bp c a n 0%R) run_arrays Hpos Hone) as [b [q [Eb [Eq [Kq Dq]]]]]. exists b, q.
    split; [exact Eb|]. split; [exact Eq|]. split; [exact Kq|]. intros gr Hg. destruct (Dq gr Hg) as [d [Ed [Sd Cd]]]. exists d. split; [exact Ed|]. split; [exact Sd|].
    intros i x Hi. destruct (Cd i x Hi) as [s [Es Fs]]. exists s. split; [exact Es|].
    assert (Hx : In x xs).
    { unfold xs, all_vars. apply in_concat. exists (vg_variables gr). split; [now apply in_map|]. eapply nth_error_In. exact Hi. }
    destruct (tree_exact x Hx) as [k Hk]. destruct Fs as [F1 [F2 _]]. destruct (Hk s F1) as [[st [cf [J [Es' Ev]]]] _]. exists st, cf.
    split; [exact J|]. split; [exact Es'|]. intros st' cf' J'. rewrite Ev. assert (Hs' : st' x < snd x) by now apply J'.
    destruct (Hk (st' x) Hs') as [_ U]. specialize (U st' cf' J' eq_refl). specialize (F2 (st' x) Hs'). 
    assert (L : (belief x (st' x) <= belief x s)%R) by exact F2. lra.
  Qed.
End Code.

Lemma C42_bounded_lemma vgs (g : fgraph R) (c : bp_ctx R) : groups_ok vgs -> reachable vgs g -> wf_groups (gr_groups g) -> bp_of g 0%R c ->
  forall a, arrays_of c a ->
  let fs := graph_factors 0%R (gr_groups g) in
  let pots := graph_pots (gr_groups g) (ba_log_potentials a) in
  let ev := read_ev (gr_vars_to_starts g) (ba_evidence a) in
  let lens := map snd (sf_edges fs) in
  forall B P D K, moderate fs pots (length (enum_factors (gr_groups g))) ev B P D K ->
  supported lens -> above_floor lens (ba_ftov_msgs a) ->
  forall n, (forall i, i <= n -> above_floor lens (unnormalised c a 0 i)) /\
    (forall i, i < n -> in_range fs pots (length (enum_factors (gr_groups g))) 0 (var_to_fac fs ev (text_bp fs pots 0 0 ev (read_msgs fs (ba_ftov_msgs a)) i))).
Proof.
  intros Hok Hr Hwf Hbp a Ha fs pots ev lens B P D K M Hsup Hfl n. split; intros i Hi.
  - apply (above_floor_run vgs g 0%R c Hok Hr Hwf Hbp a Ha B P D K M (Rle_refl 0) Hsup Hfl 0%R ltac:(lra) n). exact Hi.
  - apply (in_range_text g 0%R Hwf a B P D K M).
Qed.
