(** * Paths in acyclic graphs (towards C42). *)
From Verif Require Import NumPy Lists VGroup FGraph BPState BP SpecFGraph SpecFactor SpecWiring SpecState SpecBP SpecText SpecTree.
From Verif Require Import LemNum LemNorm LemVtoF LemText LemRun LemShift LemPerm.
From Coq Require Import Reals Lra Lia Permutation Classical.
Local Open Scope nat_scope.

Section Paths.
  Context {A : Type} (fs : list (sfactor A)).
  (** Only the factors in [act]. *)
  Context (act : list nat).
  Hypothesis Hact : forall f, In f act -> f < length fs.
  Hypothesis Hac : acyclic fs.

  Definition slot_ok (b : nat * nat) : Prop := In (fst b) act /\ snd b < arity fs (fst b).
  Definition svar (b : nat * nat) : variable := var_at fs (fst b) (snd b).
  Definition first_slot (l : list passage) (b : nat * nat) : nat * nat :=
    match l with [] => b | p :: _ => (sp_factor p, sp_in p) end.
  (** Passages without turning back, arriving at slot [b]. *)
  Inductive walk : list passage -> nat * nat -> Prop :=
  | walk_nil b : slot_ok b -> walk [] b
  | walk_cons p l b : slot_ok (sp_factor p, sp_in p) -> valid_passage fs p ->
      out_var fs p = svar (first_slot l b) -> (sp_factor p, sp_out p) <> first_slot l b ->
      walk l b -> walk (p :: l) b.

  Lemma walk_first l b : walk l b -> slot_ok (first_slot l b).
  Proof. intros H. destruct H; assumption. Qed.
  Lemma walk_valid l b : walk l b -> Forall (valid_passage fs) l.
  Proof. induction 1; constructor; assumption. Qed.
  Lemma walk_outs l b : walk l b -> map (in_var fs) l ++ [svar b] = svar (first_slot l b) :: map (out_var fs) l.
  Proof.
    induction 1 as [b Hb|p l b Hs Hv Ho Hn Hw IH]; [reflexivity|]. cbn [map app first_slot]. rewrite IH, Ho. reflexivity.
  Qed.
  Lemma walk_prefix l1 p l2 b : walk (l1 ++ p :: l2) b -> walk l1 (sp_factor p, sp_in p) /\ first_slot l1 (sp_factor p, sp_in p) = first_slot (l1 ++ p :: l2) b.
  Proof.
    revert p l2. induction l1 as [|q l1 IH]; intros p l2 H; cbn [app] in *.
    - split; [|reflexivity]. constructor. inversion H; subst; assumption.
    - inversion H as [|? ? ? Hs Hv Ho Hn Hw]; subst. destruct (IH _ _ Hw) as [IH1 IH2]. split; [|reflexivity].
      constructor; try assumption; rewrite IH2; assumption.
  Qed.
  Lemma walk_snoc l b o b' : walk l b -> slot_ok b' -> o < arity fs (fst b) -> snd b <> o ->
    var_at fs (fst b) o = svar b' -> (fst b, o) <> b' -> walk (l ++ [Pass (fst b) (snd b) o]) b'.
  Proof.
    intros Hw Hb' Ho Hne Hv Hs. induction Hw as [b Hb|p l b H1 H2 H3 H4 Hw IH].
    - cbn [app]. destruct b as [f i]. cbn [fst snd] in *. constructor; cbn [sp_factor sp_in sp_out].
      + exact Hb.
      + destruct Hb as [Hb1 Hb2]. repeat split; cbn in *; auto.
      + exact Hv.
      + exact Hs.
      + constructor. exact Hb'.
    - cbn [app]. assert (E : first_slot (l ++ [Pass (fst b) (snd b) o]) b' = first_slot l b).
      { destruct l; [cbn; now destruct b|reflexivity]. }
      constructor; try assumption; try (now rewrite E). now apply IH.
  Qed.

  (** No factor and no variable is visited twice. *)
  Lemma close_cycle l b p : walk l b -> valid_passage fs p -> out_var fs p = svar (first_slot l b) -> in_var fs p = svar b ->
    ~ In (sp_factor p) (map sp_factor l) -> NoDup (map sp_factor l) -> NoDup (map (in_var fs) l ++ [svar b]) -> False.
  Proof.
    intros Hw Hp Ho Hi Hf Hnf Hnv. apply (Hac (p :: l)). split; [discriminate|]. split; [constructor; [exact Hp|now apply (walk_valid l b)]|].
    assert (E : map (out_var fs) (p :: l) = map (in_var fs) l ++ [svar b]) by (cbn [map]; rewrite Ho; symmetry; now apply walk_outs).
    split; [|split].
    - rewrite E. cbn [rotate]. rewrite map_app. cbn [map]. now rewrite Hi.
    - cbn [map]. now constructor.
    - now rewrite E.
  Qed.
  Lemma NoDup_app_l {X} (a b : list X) : NoDup (a ++ b) -> NoDup a.
  Proof. induction a as [|x a IH]; intros H; [constructor|]. inversion H; subst. constructor; [|now apply IH]. intros Hx. apply H2. apply in_or_app. now left. Qed.
  Lemma walk_simple l b : walk l b -> NoDup (map sp_factor l ++ [fst b]) /\ NoDup (map (in_var fs) l ++ [svar b]).
  Proof.
    induction 1 as [b Hb|p l b Hs Hv Ho Hn Hw IH]; [split; repeat constructor; intros []|].
    destruct IH as [IH1 IH2]. cbn [map app].
    (* a slot of the walk, with the walk up to it *)
    assert (Cut : forall q, In q (map (fun p => (sp_factor p, sp_in p)) l ++ [b]) -> exists l1, walk l1 q /\ first_slot l1 q = first_slot l b /\
       (exists l2, l = l1 ++ l2) /\ NoDup (map sp_factor l1) /\ ~ In (fst q) (map sp_factor l1) /\ NoDup (map (in_var fs) l1 ++ [svar q])).
    { intros q Hq. apply in_app_or in Hq. destruct Hq as [Hq|[<-|[]]].
      - apply in_map_iff in Hq. destruct Hq as [p0 [<- Hp0]]. apply in_split in Hp0. destruct Hp0 as [l1 [l2 ->]].
        destruct (walk_prefix _ _ _ _ Hw) as [W1 W2]. exists l1. split; [exact W1|]. split; [exact W2|]. split; [eexists; reflexivity|].
        rewrite !map_app in *. cbn [map] in *. rewrite <- !app_assoc in *.
        assert (N1 : NoDup (map sp_factor l1 ++ [sp_factor p0])).
        { apply (NoDup_app_l _ (map sp_factor l2 ++ [fst b])). rewrite <- app_assoc. exact IH1. }
        split; [now apply NoDup_app_l in N1|]. split.
        + apply NoDup_remove_2 in N1. rewrite app_nil_r in N1. exact N1.
        + apply (NoDup_app_l _ (map (in_var fs) l2 ++ [svar b])). rewrite <- app_assoc. exact IH2.
      - exists l. split; [exact Hw|]. split; [reflexivity|]. split; [exists []; now rewrite app_nil_r|]. split; [now apply NoDup_app_l in IH1|].
        split; [apply NoDup_remove_2 in IH1; rewrite app_nil_r in IH1; exact IH1|exact IH2]. }
    assert (Hf : ~ In (sp_factor p) (map sp_factor l ++ [fst b])).
    { intros Hi. assert (Hq : exists q, In q (map (fun p => (sp_factor p, sp_in p)) l ++ [b]) /\ fst q = sp_factor p).
      { apply in_app_or in Hi. destruct Hi as [Hi|[E|[]]].
        - apply in_map_iff in Hi. destruct Hi as [p0 [E Hp0]]. exists (sp_factor p0, sp_in p0). split; [apply in_or_app; left; now apply in_map_iff; exists p0|exact E].
        - exists b. split; [apply in_or_app; right; now left|exact E]. }
      destruct Hq as [q [Hq Eq]]. destruct (Cut q Hq) as [l1 [W1 [W2 [[l2 El] [N1 [N2 N3]]]]]].
      assert (Hqa : snd q < arity fs (fst q)).
      { destruct W1 as [q Hb|]; [apply Hb|]. clear - Hq Hw. apply in_app_or in Hq. destruct Hq as [Hq|[<-|[]]].
        - apply in_map_iff in Hq. destruct Hq as [p1 [<- Hp1]]. apply walk_valid in Hw. rewrite Forall_forall in Hw. destruct (Hw p1 Hp1) as [_ [H _]]. exact H.
        - clear - Hw. induction Hw as [b Hb|]; [apply Hb|assumption]. }
      apply (close_cycle l1 q (Pass (sp_factor p) (snd q) (sp_out p))).
      - exact W1.
      - destruct Hv as [V1 [V2 [V3 V4]]]. split; [exact V1|]. cbn [sp_factor sp_in sp_out]. split; [now rewrite <- Eq|]. split; [exact V3|].
        intros E. destruct l1 as [|p1 l1].
        + cbn [first_slot] in W2. apply Hn. rewrite <- W2, <- Eq, <- E. now destruct q.
        + assert (Hd : svar (first_slot (p1 :: l1) q) <> svar q).
          { cbn [first_slot map app] in *. intros Ee. apply NoDup_cons_iff in N3. apply (proj1 N3). apply in_or_app. right. left. symmetry. exact Ee. }
          apply Hd. rewrite W2, <- Ho. unfold svar, out_var. now rewrite Eq, E.
      - unfold out_var. cbn [sp_factor sp_out]. rewrite W2. exact Ho.
      - unfold in_var, svar. cbn [sp_factor sp_in]. now rewrite Eq.
      - cbn [sp_factor]. now rewrite <- Eq.
      - exact N1.
      - exact N3. }
    split; [constructor; [exact Hf|exact IH1]|]. constructor; [|exact IH2]. intros Hi.
    assert (Hq : exists q, In q (map (fun p => (sp_factor p, sp_in p)) l ++ [b]) /\ svar q = in_var fs p).
    { apply in_app_or in Hi. destruct Hi as [Hi|[E|[]]].
      - apply in_map_iff in Hi. destruct Hi as [p0 [E Hp0]]. exists (sp_factor p0, sp_in p0). split; [apply in_or_app; left; now apply in_map_iff; exists p0|exact E].
      - exists b. split; [apply in_or_app; right; now left|exact E]. }
    destruct Hq as [q [Hq Eq]]. destruct (Cut q Hq) as [l1 [W1 [W2 [[l2 El] [N1 [N2 N3]]]]]].
    apply (close_cycle l1 q p); auto.
    - now rewrite W2.
    - intros Hx. apply Hf. apply in_or_app. left. rewrite El, map_app. apply in_or_app. now left.
  Qed.
  Lemma walk_short l b : walk l b -> length l < length act.
  Proof.
    intros Hw. destruct (walk_simple l b Hw) as [H _]. replace (length l) with (length (map sp_factor l ++ [fst b]) - 1) by (rewrite app_length, map_length; cbn; lia).
    assert (Hi : incl (map sp_factor l ++ [fst b]) act).
    { intros f Hf. apply in_app_or in Hf. clear H. induction Hw as [b Hb|p l b Hs Hv Ho Hn Hw IH].
      - destruct Hf as [[]|[<-|[]]]. apply Hb.
      - destruct Hf as [[<-|Hf]|Hf]; [apply Hs|apply IH; now left|apply IH; now right]. }
    pose proof (NoDup_incl_length H Hi) as L. rewrite app_length in *. cbn [length] in *. lia.
  Qed.
End Paths.

(** ** A good order of the factors *)
Section Order.
  Context {A : Type} (fs : list (sfactor A)) (r : variable).
  Hypothesis Hac : acyclic fs.
  Hypothesis Har : forall f, f < length fs -> 0 < arity fs f.

  (** In every non-empty set of factors one has at most one slot whose variable is [r] or
      occurs elsewhere. *)
  Definition leaf (act : list nat) (b : nat * nat) : Prop :=
    slot_ok fs act b /\ forall u, u < arity fs (fst b) -> u <> snd b -> var_at fs (fst b) u <> r /\
      forall q, slot_ok fs act q -> svar fs q = var_at fs (fst b) u -> q = (fst b, u).
  Lemma leaf_search act n l b : (forall f, In f act -> f < length fs) -> walk fs act l b ->
    (svar fs (first_slot l b) = r \/ forall q, slot_ok fs act q -> svar fs q <> r) ->
    length act <= length l + n -> exists b', leaf act b'.
  Proof.
    intros Hact. revert l b. induction n as [|n IH]; intros l b Hw Hr Hn.
    - pose proof (walk_short fs act Hac l b Hw). lia.
    - destruct (classic (exists u q, u < arity fs (fst b) /\ u <> snd b /\ slot_ok fs act q /\ svar fs q = var_at fs (fst b) u /\ q <> (fst b, u))) as [[u [q [H1 [H2 [H3 [H4 H5]]]]]]|Hno].
      + apply (IH (l ++ [Pass (fst b) (snd b) u]) q).
        * apply walk_snoc; auto.
        * destruct Hr as [Hr|Hr]; [left|now right]. destruct l; [cbn [app first_slot] in *; now destruct b|exact Hr].
        * rewrite app_length. cbn [length]. lia.
      + exists b. assert (Hb : slot_ok fs act b) by (clear - Hw; induction Hw; assumption). split; [exact Hb|]. intros u Hu Hne.
        assert (Hq : forall q, slot_ok fs act q -> svar fs q = var_at fs (fst b) u -> q = (fst b, u)).
        { intros q Hq Eq. apply NNPP. intros F. apply Hno. exists u, q. auto. }
        split; [|exact Hq]. intros E. destruct Hr as [Hr|Hr].
        * assert (F : first_slot l b = (fst b, u)) by (apply Hq; [now apply (walk_first fs act)|congruence]).
          destruct (walk_simple fs act Hac l b Hw) as [Hs _]. destruct l as [|p l]; cbn [first_slot map app] in *.
          -- apply Hne. rewrite F. reflexivity.
          -- apply NoDup_cons_iff in Hs. apply (proj1 Hs). apply in_or_app. right. left. congruence.
        * apply (Hr (fst b, u)); [split; [apply Hb|exact Hu]|exact E].
  Qed.
  Lemma leaf_exists act : (forall f, In f act -> f < length fs) -> act <> [] -> exists b, leaf act b.
  Proof.
    intros Hact Hne. destruct (classic (exists q, slot_ok fs act q /\ svar fs q = r)) as [[q [Hq Eq]]|Hno].
    - apply (leaf_search act (length act) [] q Hact); [now constructor|now left|cbn; lia].
    - destruct act as [|f act]; [contradiction|]. assert (Hf : f < length fs) by (apply Hact; now left).
      apply (leaf_search (f :: act) (length (f :: act)) [] (f, 0) Hact); [constructor; split; [now left|cbn; now apply Har]| |cbn; lia].
      right. intros q Hq Eq. apply Hno. now exists q.
  Qed.

  (** The other variables of each slot's factor are new: they are not [r] and do not occur in
      the factors after it in the list. *)
  Fixpoint good (ord : list (nat * nat)) : Prop :=
    match ord with
    | [] => True
    | b :: rest => good rest /\ ~ In (fst b) (map fst rest) /\ leaf (fst b :: map fst rest) b
    end.
  Lemma leaf_incl act act' b : incl act' act -> In (fst b) act' -> leaf act b -> leaf act' b.
  Proof.
    intros Hi Hb [[H1 H2] H3]. split; [now split|]. intros u Hu Hne. destruct (H3 u Hu Hne) as [H4 H5]. split; [exact H4|].
    intros q [Hq1 Hq2] Eq. apply H5; [split; [now apply Hi|exact Hq2]|exact Eq].
  Qed.
  Lemma order_exists n act : length act = n -> NoDup act -> (forall f, In f act -> f < length fs) ->
    exists ord, good ord /\ Permutation (map fst ord) act.
  Proof.
    revert act. induction n as [|n IH]; intros act Hl Hnd Hact.
    - exists []. destruct act; [|discriminate]. split; [exact I|constructor].
    - destruct (leaf_exists act Hact) as [b Hb]; [intros ->; discriminate|]. pose proof Hb as [[Hin _] _]. apply in_split in Hin. destruct Hin as [l1 [l2 ->]].
      destruct (IH (l1 ++ l2)) as [ord [Hg Hp]].
      + rewrite app_length in *. cbn [length] in Hl. lia.
      + now apply NoDup_remove_1 in Hnd.
      + intros f Hf. apply Hact. apply in_or_app. apply in_app_or in Hf. cbn. tauto.
      + exists (b :: ord). split.
        * cbn [good]. split; [exact Hg|]. split.
          -- intros Hi. apply (Permutation_in _ Hp) in Hi. apply NoDup_remove_2 in Hnd. contradiction.
          -- apply (leaf_incl (l1 ++ fst b :: l2)); [|now left|exact Hb]. intros f [<-|Hf]; [apply in_elt|].
             apply (Permutation_in _ Hp) in Hf. apply in_or_app. apply in_app_or in Hf. cbn. tauto.
        * cbn [map]. now apply Permutation_cons_app.
  Qed.
End Order.

(** ** Convergence *)
Section Conv.
  Context {A : Type} (fs : list (sfactor A)) (pots : nat -> nat -> R).
  Hypothesis Hcfg : configs_ok fs.
  Hypothesis Hcov : covered fs.
  Hypothesis Hac : acyclic fs.
  Context (T : R) (ev : variable -> nat -> R) (m0 : msg) (n : nat).
  Let bp := text_bp fs pots T 0%R ev m0.
  Hypothesis Hun : forall i, i < n -> unclipped fs (fac_to_var fs pots T (var_to_fac fs ev (bp i))).

  Definition upto_at (m m' : msg) (f u : nat) : Prop := exists k : R, forall s, s < snd (var_at fs f u) -> m f u s = (m' f u s + k)%R.
  Lemma at_trans m1 m2 m3 f u : upto_at m1 m2 f u -> upto_at m2 m3 f u -> upto_at m1 m3 f u.
  Proof. intros [k1 E1] [k2 E2]. exists (k1 + k2)%R. intros s Hs. rewrite E1, E2 by exact Hs. lra. Qed.
  Lemma at_sym m m' f u : upto_at m m' f u -> upto_at m' m f u.
  Proof. intros [k E]. exists (- k)%R. intros s Hs. rewrite E by exact Hs. lra. Qed.

  Lemma fac_to_var_local v v' f u : f < length fs -> u < arity fs f ->
    (forall u', u' < arity fs f -> u' <> u -> upto_at v v' f u') -> upto_at (fac_to_var fs pots T v) (fac_to_var fs pots T v') f u.
  Proof.
    intros Hf Hu Hv.
    set (w := fun g x s => if (g =? f) && (x =? u) then v' g x s else if g =? f then v g x s else v' g x s).
    assert (E1 : upto_at (fac_to_var fs pots T w) (fac_to_var fs pots T v') f u).
    { apply (fac_to_var_shift fs pots Hcfg Hcov T w v'); [|exact Hf|exact Hu]. intros g x Hg Hx. unfold w.
      destruct (Nat.eqb_spec g f) as [E|Hne]; cbn [andb]; [|exists 0%R; intros s Hs; lra].
      destruct (Nat.eqb_spec x u) as [E'|Hne']; [exists 0%R; intros s Hs; lra|]. subst g. apply (Hv x Hx Hne'). }
    assert (E2 : forall c, score_but fs pots v f c u = score_but fs pots w f c u).
    { intros c. unfold score_but. f_equal. apply rsum_ext. intros x Hx. apply filter_In in Hx. destruct Hx as [_ Hx].
      unfold w. rewrite Nat.eqb_refl. destruct (Nat.eqb_spec x u) as [E'|]; [discriminate|]. reflexivity. }
    destruct E1 as [k E1]. exists k. intros s Hs. rewrite <- (E1 s Hs). unfold fac_to_var. destruct (Req_EM_T T 0) as [HT|HT]; unfold fac_to_var_max, fac_to_var_soft.
    - f_equal. apply map_ext. exact E2.
    - f_equal. f_equal. apply rsum_ext. intros c _. now rewrite E2.
  Qed.
  Lemma var_to_fac_local m m' f u : f < length fs -> u < arity fs f ->
    (forall q, slot_ok fs (seq 0 (length fs)) q -> svar fs q = var_at fs f u -> q <> (f, u) -> upto_at m m' (fst q) (snd q)) ->
    upto_at (var_to_fac fs ev m) (var_to_fac fs ev m') f u.
  Proof.
    intros Hf Hu H. unfold upto_at, var_to_fac. set (l := filter _ _).
    assert (Hl : forall q, In q l -> upto_at m m' (fst q) (snd q) /\ var_at fs (fst q) (snd q) = var_at fs f u).
    { intros [g w] Hq. unfold l in Hq. apply filter_In in Hq. destruct Hq as [Hq Hne]. apply In_slots_of in Hq. destruct Hq as [Hg [Hw E]]. split; [|exact E].
      apply H; [split; [apply in_seq; cbn; lia|exact Hw]|exact E|]. intros F. rewrite (proj2 (slot_eqb_eq _ _) F) in Hne. discriminate. }
    clearbody l. induction l as [|q l IH]; [exists 0%R; intros s Hs; cbn [map]; lra|].
    destruct IH as [k Ek]; [intros q' Hq'; apply Hl; now right|]. destruct (Hl q (or_introl eq_refl)) as [[k' Ek'] E]. rewrite E in Ek'.
    exists (k + k')%R. intros s Hs. specialize (Ek s Hs). specialize (Ek' s Hs). cbn [map]. rewrite !rsum_cons, Ek'. lra.
  Qed.
  Lemma step_raw i f u : i < n -> f < length fs -> u < arity fs f -> upto_at (bp (S i)) (fac_to_var fs pots T (var_to_fac fs ev (bp i))) f u.
  Proof.
    intros Hi Hf Hu. set (F := fac_to_var fs pots T (var_to_fac fs ev (bp i))).
    exists (- rmaxs (map (F f u) (seq 0 (snd (var_at fs f u)))))%R. intros s Hs.
    change (bp (S i)) with (text_step fs pots T 0%R ev (bp i)). unfold text_step. fold F.
    assert (Ed : forall t, damp 0 (bp i) F f u t = F f u t) by (intros t; unfold damp; lra).
    unfold normal. rewrite Ed, (map_ext _ _ Ed). specialize (Hun i Hi f u s Hf Hu Hs). fold F in Hun. rewrite Rmax_right; [reflexivity|exact Hun].
  Qed.

  Let act := seq 0 (length fs).
  Definition height (j : nat) (q : nat * nat) : Prop := forall l b, walk fs act l b -> first_slot l b = q -> length l < j.
  Lemma act_lt f : In f act -> f < length fs.
  Proof. unfold act. rewrite in_seq. lia. Qed.
  Lemma height_below j f u u' q : f < length fs -> u < arity fs f -> height (S j) (f, u) -> u' < arity fs f -> u' <> u ->
    slot_ok fs act q -> svar fs q = var_at fs f u' -> q <> (f, u') -> height j q.
  Proof.
    intros Hf Hu H Hu' Hne Hq Eq Hqn l b Hw E.
    assert (W : walk fs act (Pass f u u' :: l) b).
    { constructor; cbn [sp_factor sp_in sp_out].
      - split; [apply in_seq; cbn; lia|exact Hu].
      - repeat split; cbn; auto.
      - unfold out_var. cbn. now rewrite E.
      - rewrite E. auto.
      - exact Hw. }
    specialize (H _ _ W eq_refl). cbn [length] in H. lia.
  Qed.
  Lemma conv j f u i i' : f < length fs -> u < arity fs f -> height j (f, u) -> j <= i <= n -> j <= i' <= n -> upto_at (bp i) (bp i') f u.
  Proof.
    revert f u i i'. induction j as [|j IH]; intros f u i i' Hf Hu Hh Hi Hi'.
    - exfalso. assert (W : walk fs act [] (f, u)) by (constructor; split; [apply in_seq; cbn; lia|exact Hu]). specialize (Hh _ _ W eq_refl). cbn in Hh. lia.
    - destruct i as [|i]; [lia|]. destruct i' as [|i']; [lia|].
      apply (at_trans _ (fac_to_var fs pots T (var_to_fac fs ev (bp i)))); [apply step_raw; auto; lia|].
      apply (at_trans _ (fac_to_var fs pots T (var_to_fac fs ev (bp i')))); [|apply at_sym, step_raw; auto; lia].
      apply fac_to_var_local; auto. intros u' Hu' Hne. apply var_to_fac_local; auto. intros q Hq Eq Hqn. destruct Hq as [Hq1 Hq2].
      apply (IH (fst q) (snd q)); [now apply act_lt|exact Hq2| |lia|lia].
      replace (fst q, snd q) with q by now destruct q. apply (height_below j f u u' q); auto. now split.
  Qed.
  (** After as many iterations as there are factors the messages are a fixed point. *)
  Lemma converged f u : length fs <= n -> f < length fs -> u < arity fs f ->
    upto_at (fac_to_var fs pots T (var_to_fac fs ev (bp n))) (bp n) f u.
  Proof.
    intros Hn Hf Hu. assert (Hall : forall q, height (length fs) q).
    { intros q l b Hw _. pose proof (walk_short fs act Hac l b Hw) as H. unfold act in H. rewrite seq_length in H. exact H. }
    assert (EF : exists F, length fs = S F) by (exists (length fs - 1); lia). destruct EF as [F EF].
    assert (En : exists k, n = S k) by (exists (n - 1); lia). destruct En as [k En].
    apply (at_trans _ (fac_to_var fs pots T (var_to_fac fs ev (bp k)))); [|rewrite En; apply at_sym, step_raw; auto; lia].
    apply fac_to_var_local; [lia|exact Hu|]. intros u' Hu' Hne. apply var_to_fac_local; [lia|exact Hu'|]. intros q [Hq1 Hq2] Eq Hqn.
    assert (Hq3 : fst q < length fs) by (apply in_seq in Hq1; lia).
    apply (conv F); [exact Hq3|exact Hq2| |lia|lia].
    replace (fst q, snd q) with q by now destruct q. apply (height_below F f u u' q); auto; [rewrite <- EF; apply Hall|now split].
  Qed.
  Lemma stable f u i i' : f < length fs -> u < arity fs f -> length fs <= i <= n -> length fs <= i' <= n -> upto_at (bp i) (bp i') f u.
  Proof.
    intros Hf Hu Hi Hi'. apply (conv (length fs)); auto. intros l b Hw _. pose proof (walk_short fs act Hac l b Hw) as H. unfold act in H. now rewrite seq_length in H.
  Qed.
End Conv.

(** ** Graphs with a good order are acyclic *)
Section Converse.
  Context {A : Type} (fs : list (sfactor A)) (r : variable).
  Lemma rotate_nth {X} (d : X) l i : i < length l -> nth i (rotate l) d = nth (if S i =? length l then 0 else S i) l d.
  Proof.
    destruct l as [|x l]; [cbn; lia|]. cbn [rotate length]. intros Hi. destruct (Nat.eqb_spec (S i) (S (length l))) as [E|Hne].
    - injection E as ->. rewrite app_nth2 by lia. now rewrite Nat.sub_diag.
    - rewrite app_nth1 by lia. reflexivity.
  Qed.
  Lemma rotate_length {X} (l : list X) : length (rotate l) = length l.
  Proof. destruct l; [reflexivity|]. cbn. rewrite app_length. cbn. lia. Qed.
  Lemma cycle_leaf l act b : cycle fs l -> (forall p, In p l -> In (sp_factor p) act) -> leaf fs r act b -> In (fst b) (map sp_factor l) -> False.
  Proof.
    intros [Hne [Hv [Hc [Hnf _]]]] Hact [_ Hl] Hin. apply in_map_iff in Hin. destruct Hin as [p [Ep Hp]].
    rewrite Forall_forall in Hv. destruct (Hv p Hp) as [V1 [V2 [V3 V4]]].
    assert (Same : forall p', In p' l -> sp_factor p' = sp_factor p -> p' = p).
    { intros p' Hp' E. clear - Hnf Hp Hp' E. induction l as [|x l IH]; [destruct Hp|]. cbn [map] in Hnf. apply NoDup_cons_iff in Hnf. destruct Hnf as [Hx Hnf].
      destruct Hp as [->|Hp], Hp' as [->|Hp']; auto; exfalso; apply Hx; [rewrite <- E|rewrite E]; now apply in_map. }
    assert (Hnth : forall i, i < length l -> out_var fs (nth i l p) = in_var fs (nth (if S i =? length l then 0 else S i) l p)).
    { intros i Hi. rewrite <- (rotate_nth p l i Hi), <- !(map_nth (in_var fs)), <- (map_nth (out_var fs)), Hc.
      rewrite !(nth_indep _ _ (in_var fs p)) by (rewrite ?map_length, ?rotate_length; exact Hi). reflexivity. }
    destruct (In_nth l p p Hp) as [i [Hi Ei]].
    destruct (Nat.eq_dec (sp_out p) (snd b)) as [Eo|Ho].
    - (* the other slot is where it enters *)
      assert (Hi' : sp_in p <> snd b) by congruence. destruct (Hl (sp_in p)) as [_ H]; [now rewrite <- Ep|exact Hi'|].
      assert (Hprev : exists p', In p' l /\ out_var fs p' = in_var fs p).
      { destruct i as [|i].
        - exists (nth (length l - 1) l p). split; [apply nth_In; lia|]. rewrite Hnth by lia. replace (S (length l - 1) =? length l) with true by (symmetry; apply Nat.eqb_eq; lia). now rewrite Ei.
        - exists (nth i l p). split; [apply nth_In; lia|]. rewrite Hnth by lia. destruct (Nat.eqb_spec (S i) (length l)); [lia|]. now rewrite Ei. }
      destruct Hprev as [p' [Hp' E']]. destruct (Hv p' Hp') as [W1 [W2 [W3 W4]]].
      assert (F : (sp_factor p', sp_out p') = (fst b, sp_in p)) by (apply H; [split; [now apply Hact|exact W3]|rewrite <- Ep; exact E']).
      injection F as F1 F2. assert (p' = p) by (apply Same; [exact Hp'|congruence]). subst p'. congruence.
    - destruct (Hl (sp_out p)) as [_ H]; [now rewrite <- Ep|exact Ho|].
      set (p' := nth (if S i =? length l then 0 else S i) l p).
      assert (Hp' : In p' l) by (apply nth_In; destruct (Nat.eqb_spec (S i) (length l)); lia).
      assert (E' : in_var fs p' = out_var fs p) by (unfold p'; rewrite <- Hnth by exact Hi; now rewrite Ei).
      destruct (Hv p' Hp') as [W1 [W2 [W3 W4]]].
      assert (F : (sp_factor p', sp_in p') = (fst b, sp_out p)) by (apply H; [split; [now apply Hact|exact W2]|rewrite <- Ep; exact E']).
      injection F as F1 F2. assert (p' = p) by (apply Same; [exact Hp'|congruence]). rewrite H0 in F2. congruence.
  Qed.
  Lemma good_acyclic ord : good fs r ord -> (forall f, f < length fs -> In f (map fst ord)) -> acyclic fs.
  Proof.
    intros Hg Hall l Hcyc. assert (Hin : forall p, In p l -> In (sp_factor p) (map fst ord)).
    { intros p Hp. apply Hall. destruct Hcyc as [_ [Hv _]]. rewrite Forall_forall in Hv. apply (Hv p Hp). }
    assert (Hne : l <> []) by apply Hcyc. clear Hall. induction ord as [|b ord IH].
    - destruct l as [|p l]; [contradiction|]. apply (Hin p). now left.
    - cbn [good] in Hg. destruct Hg as [Hg [Hb Hl]]. destruct (in_dec Nat.eq_dec (fst b) (map sp_factor l)) as [Hi|Hi].
      + apply (cycle_leaf l _ b Hcyc Hin Hl Hi).
      + apply IH; [exact Hg|]. intros p Hp. destruct (Hin p Hp) as [E|H]; [|exact H]. exfalso. apply Hi. rewrite E. now apply in_map.
  Qed.
End Converse.
