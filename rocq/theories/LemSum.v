(** * Exact sums on acyclic graphs (towards C45). *)
From Verif Require Import NumPy Lists VGroup FGraph BPState BP SpecVGroup SpecFGraph SpecFactor SpecWiring SpecState SpecBP SpecText SpecBeliefs SpecTree SpecSum.
From Verif Require Import LemVGroup LemFGraph LemState LemNum LemNorm LemVtoF LemText LemRun LemBeliefs LemBruteSoft LemShift LemPerm LemTree LemExact LemSpread.
From Coq Require Import Reals Lra Lia Permutation FunctionalExtensionality.
Local Open Scope nat_scope.

(** ** Products *)
Lemma rprod_cons x l : rprod (x :: l) = (x * rprod l)%R.
Proof. reflexivity. Qed.
Lemma rprod_mult {X} (f g : X -> R) l : rprod (map (fun x => f x * g x)%R l) = (rprod (map f l) * rprod (map g l))%R.
Proof. induction l as [|x l IH]; [cbn; lra|]. cbn [map]. rewrite !rprod_cons, IH. ring. Qed.
Lemma rprod_exp {X} (f : X -> R) l : rprod (map (fun x => exp (f x)) l) = exp (rsum (map f l)).
Proof. induction l as [|x l IH]; [cbn [map]; rewrite rsum_nil, exp_0; reflexivity|]. cbn [map]. rewrite rprod_cons, rsum_cons, IH, exp_plus. reflexivity. Qed.
Lemma rprod_ext {X} (f g : X -> R) l : (forall x, In x l -> f x = g x) -> rprod (map f l) = rprod (map g l).
Proof. intros H. f_equal. now apply map_ext_in. Qed.
Lemma rprod_perm l l' : Permutation l l' -> rprod l = rprod l'.
Proof. induction 1; [reflexivity| | |congruence]; rewrite !rprod_cons; [congruence|ring]. Qed.
Lemma rprod_pos l : (forall x, In x l -> (0 < x)%R) -> (0 < rprod l)%R.
Proof. induction l as [|x l IH]; intros H; [cbn; lra|]. rewrite rprod_cons. apply Rmult_lt_0_compat; [apply H; now left|apply IH; intros y Hy; apply H; now right]. Qed.
Lemma rsum_div {X} (f : X -> R) T l : rsum (map (fun x => f x / T)%R l) = (rsum (map f l) / T)%R.
Proof. unfold Rdiv. rewrite Rmult_comm, <- rsum_scal. apply rsum_ext. intros; ring. Qed.

(** ** Sums over states *)
Lemma assign_same st y s : assign st y s y = s.
Proof. unfold assign. now rewrite (proj2 (var_eqb_eq y y) eq_refl). Qed.
Lemma assign_other st y s x : x <> y -> assign st y s x = st x.
Proof. intros H. unfold assign. destruct (var_eqb x y) eqn:E; [apply var_eqb_eq in E; contradiction|reflexivity]. Qed.
Lemma assign_comm st x y s t : x <> y -> assign (assign st x s) y t = assign (assign st y t) x s.
Proof.
  intros H. apply functional_extensionality. intros z. unfold assign. destruct (var_eqb z y) eqn:E1, (var_eqb z x) eqn:E2; try reflexivity.
  apply var_eqb_eq in E1, E2. congruence.
Qed.
Lemma var_dec (x y : variable) : {x = y} + {x <> y}.
Proof. decide equality; [apply Nat.eq_dec|apply Z.eq_dec]. Qed.

(** Two sums whose terms agree. *)
Lemma sum_ext ys : forall st st' (F F' : (variable -> nat) -> R),
  (forall t t', (forall x, In x ys -> t x = t' x /\ t x < snd x) -> (forall x, ~ In x ys -> t x = st x /\ t' x = st' x) -> F t = F' t') ->
  sum_states ys st F = sum_states ys st' F'.
Proof.
  induction ys as [|y ys IH]; intros st st' F F' H; cbn [sum_states].
  - apply H; [intros x []|intros x _; now split].
  - apply rsum_ext. intros s Hs. apply in_seq in Hs. apply IH. intros t t' H1 H2. apply H.
    + intros x Hx. destruct (in_dec var_dec x ys) as [Hi|Hi]; [now apply H1|]. destruct Hx as [<-|Hx]; [|contradiction].
      destruct (H2 y Hi) as [E1 E2]. rewrite assign_same in E1, E2. lia.
    + intros x Hx. destruct (H2 x) as [E1 E2]; [intros F0; apply Hx; now right|]. rewrite assign_other in E1, E2 by (intros ->; apply Hx; now left). now split.
Qed.
Lemma sum_app ys zs : forall st F, sum_states (ys ++ zs) st F = sum_states ys st (fun t => sum_states zs t F).
Proof. induction ys as [|y ys IH]; intros st F; [reflexivity|]. cbn [app sum_states]. apply rsum_ext. intros s _. apply IH. Qed.
Lemma sum_scal ys k : forall st F, sum_states ys st (fun t => k * F t)%R = (k * sum_states ys st F)%R.
Proof. induction ys as [|y ys IH]; intros st F; [reflexivity|]. cbn [sum_states]. rewrite <- rsum_scal. apply rsum_ext. intros s _. apply IH. Qed.
Lemma rsum_swap {X Y} (f : X -> Y -> R) l l' : rsum (map (fun x => rsum (map (f x) l')) l) = rsum (map (fun y => rsum (map (fun x => f x y) l)) l').
Proof.
  induction l as [|x l IH]; cbn [map].
  - rewrite rsum_nil. induction l' as [|y l' IH]; [reflexivity|]. cbn [map]. rewrite rsum_cons, <- IH. cbn [map]. rewrite ?rsum_nil. change (rsum nil) with 0%R. lra.
  - rewrite rsum_cons, IH, <- rsum_plus. apply rsum_ext. intros y _. now rewrite rsum_cons.
Qed.
Lemma sum_rsum {X} ys (l : list X) : forall st (F : X -> (variable -> nat) -> R),
  sum_states ys st (fun t => rsum (map (fun c => F c t) l)) = rsum (map (fun c => sum_states ys st (F c)) l).
Proof.
  induction ys as [|y ys IH]; intros st F; [reflexivity|]. cbn [sum_states]. rewrite <- rsum_swap. apply rsum_ext. intros s _. apply IH.
Qed.
Lemma sum_pos ys : (forall y, In y ys -> 0 < snd y) -> forall st F, (forall t, (0 < F t)%R) -> (0 < sum_states ys st F)%R.
Proof.
  induction ys as [|y ys IH]; intros Hp st F H; [apply H|]. cbn [sum_states]. apply rsum_pos.
  - specialize (Hp y (or_introl eq_refl)). destruct (snd y); [lia|discriminate].
  - intros x Hx. apply in_map_iff in Hx. destruct Hx as [s [<- _]]. apply IH; [intros z Hz; apply Hp; now right|exact H].
Qed.
Lemma sum_perm ys ys' : Permutation ys ys' -> NoDup ys -> forall st F, sum_states ys st F = sum_states ys' st F.
Proof.
  induction 1 as [|y l l' Hp IH|x y l|l1 l2 l3 H1 IH1 H2 IH2]; intros Hnd st F.
  - reflexivity.
  - cbn [sum_states]. apply NoDup_cons_iff in Hnd. apply rsum_ext. intros s _. now apply IH.
  - cbn [sum_states]. assert (Hne : y <> x).
    { apply NoDup_cons_iff in Hnd. intros ->. apply (proj1 Hnd). now left. }
    rewrite rsum_swap. apply rsum_ext. intros s _. apply rsum_ext. intros t _. now rewrite assign_comm.
  - rewrite IH1 by exact Hnd. apply IH2. now apply (Permutation_NoDup H1).
Qed.
Lemma rsum_single_nat (l : list nat) j x : NoDup l -> In j l -> rsum (map (fun i => if (i =? j)%nat then x else 0%R) l) = x.
Proof.
  induction 1 as [|i l Hi Hnd IH]; intros Hj; [destruct Hj|]. cbn [map]. rewrite rsum_cons. destruct (Nat.eqb_spec i j) as [->|Hne].
  - rewrite (rsum_ext _ (fun _ => 0%R)); [rewrite rsum_const; lra|]. intros k Hk. destruct (Nat.eqb_spec k j) as [->|]; [contradiction|reflexivity].
  - destruct Hj as [->|Hj]; [contradiction|]. rewrite IH by exact Hj. lra.
Qed.
Lemma forallb_ext_in {X} (p q : X -> bool) l : (forall x, In x l -> p x = q x) -> forallb p l = forallb q l.
Proof. induction l as [|x l IH]; intros H; [reflexivity|]. cbn [forallb]. rewrite (H x) by now left. rewrite IH; [reflexivity|]. intros y Hy. apply H. now right. Qed.
(** Only one assignment contributes. *)
Lemma sum_single ys (a : variable -> nat) w : NoDup ys -> (forall y, In y ys -> a y < snd y) -> forall st,
  sum_states ys st (fun t => if forallb (fun y => a y =? t y) ys then w else 0%R) = w.
Proof.
  induction ys as [|y ys IH]; intros Hnd Ha st; [reflexivity|]. apply NoDup_cons_iff in Hnd. destruct Hnd as [Hy Hnd]. cbn [sum_states].
  rewrite (rsum_ext _ (fun s => if s =? a y then w else 0%R)).
  - apply rsum_single_nat; [apply seq_NoDup|apply in_seq; specialize (Ha y (or_introl eq_refl)); lia].
  - intros s Hs. destruct (Nat.eqb_spec s (a y)) as [->|Hne].
    + etransitivity; [|exact (IH Hnd (fun z Hz => Ha z (or_intror Hz)) (assign st y (a y)))]. apply sum_ext. intros t t' H1 H2.
      assert (E : forallb (fun y0 => a y0 =? t y0) (y :: ys) = forallb (fun y0 => a y0 =? t' y0) ys).
      { cbn [forallb]. destruct (H2 y Hy) as [-> _]. rewrite assign_same, Nat.eqb_refl. cbn [andb]. apply forallb_ext_in. intros z Hz. now destruct (H1 z Hz) as [-> _]. }
      cbv beta. rewrite E. reflexivity.
    + transitivity (sum_states ys (assign st y s) (fun t => 0 * 0)%R).
      * apply sum_ext. intros t t' H1 H2. cbn [forallb]. destruct (H2 y Hy) as [-> _]. rewrite assign_same. destruct (Nat.eqb_spec (a y) s); [congruence|]. cbn [andb]. lra.
      * rewrite sum_scal. lra.
Qed.

(** ** Exact sums *)
Section Exact.
  Context {A : Type} (fs : list (sfactor A)) (pots : nat -> nat -> R) (T : R).
  Context (ev : variable -> nat -> R) (m : msg) (xs : list variable).
  Hypothesis HT : T <> 0%R.
  Hypothesis Hnd : NoDup xs.
  Hypothesis Hxs : incl (sf_edges fs) xs.
  Hypothesis Hpos : forall x, In x xs -> 0 < snd x.
  Hypothesis Hcfg : configs_ok fs.
  Hypothesis Hcov : covered fs.
  Let v := var_to_fac fs ev m.
  Let b := text_belief fs ev m.
  Hypothesis Hfix : forall f u, f < length fs -> u < arity fs f -> upto_at fs (fac_to_var_soft fs pots T v) m f u.
  Let ex := excess fs pots ev m.

  Lemma ex_but f u c : f < length fs -> u < arity fs f -> ex (f, u) c = (score_but fs pots v f c u - m f u (config_at_slot fs f c u))%R.
  Proof.
    intros Hf Hu. unfold ex, excess. cbn [fst snd]. unfold svar. cbn [fst snd]. rewrite (score_but_split fs pots ev m f c u Hf Hu).
    rewrite (vtof_belief fs ev m f u _ Hf Hu). fold v. lra.
  Qed.
  (** The total of the excesses does not depend on the state. *)
  Lemma excess_sum q : fst q < length fs -> snd q < arity fs (fst q) -> exists K : R, (0 < K)%R /\
    forall s, s < snd (svar fs q) -> rsum (map (fun c => exp (ex q c / T)) (choices fs (fst q) (snd q) s)) = K.
  Proof.
    destruct q as [f u]. cbn [fst snd]. intros Hf Hu. destruct (Hfix f u Hf Hu) as [k Ek]. exists (exp (k / T)). split; [apply exp_pos|].
    intros s Hs. unfold svar in Hs. cbn [fst snd] in Hs. specialize (Ek s Hs). unfold fac_to_var_soft in Ek.
    set (S := rsum (map (fun c => exp (score_but fs pots v f c u / T)) (choices fs f u s))) in *.
    assert (HS : (0 < S)%R).
    { unfold S. apply rsum_pos; [specialize (Hcov f u s Hf Hu Hs); destruct (choices fs f u s); [contradiction|discriminate]|].
      intros x Hx. apply in_map_iff in Hx. destruct Hx as [c [<- _]]. apply exp_pos. }
    assert (ES : S = exp ((m f u s + k) / T)). { rewrite <- Ek. replace (T * ln S / T)%R with (ln S) by (field; exact HT). now rewrite exp_ln. }
    rewrite (rsum_ext _ (fun c => exp (- m f u s / T) * exp (score_but fs pots v f c u / T))%R).
    - rewrite rsum_scal. fold S. rewrite ES, <- exp_plus. f_equal. field. exact HT.
    - intros c Hc. apply choice_iff in Hc. rewrite ex_but by assumption. rewrite (proj2 Hc), <- exp_plus. f_equal. field. exact HT.
  Qed.
  Lemma excess_sums (ord : list (nat * nat)) : (forall q, In q ord -> fst q < length fs /\ snd q < arity fs (fst q)) -> exists K : nat * nat -> R,
    forall q, In q ord -> (0 < K q)%R /\
      forall s, s < snd (svar fs q) -> rsum (map (fun c => exp (ex q c / T)) (choices fs (fst q) (snd q) s)) = K q.
  Proof.
    induction ord as [|q ord IH]; intros H; [exists (fun _ => 0%R); intros q []|].
    destruct IH as [K HK]; [intros p Hp; apply H; now right|]. destruct (H q (or_introl eq_refl)) as [H1 H2]. destruct (excess_sum q H1 H2) as [k Hk].
    exists (fun p => if slot_eqb p q then k else K p). intros p Hp. destruct (slot_eqb p q) eqn:E; [apply slot_eqb_eq in E; subst p; exact Hk|].
    apply HK. destruct Hp as [->|Hp]; [|exact Hp]. rewrite (proj2 (slot_eqb_eq p p) eq_refl) in E. discriminate.
  Qed.

  Lemma In_agree f st c : In c (agree fs f st) <-> c < length (sf_configs (factor_at fs f)) /\ forall u, u < arity fs f -> config_at_slot fs f c u = st (var_at fs f u).
  Proof.
    unfold agree. rewrite filter_In, in_seq, forallb_forall. split; intros [H1 H2]; (split; [lia|]).
    - intros u Hu. specialize (H2 u ltac:(apply in_seq; lia)). now apply Nat.eqb_eq.
    - intros u Hu. apply in_seq in Hu. apply Nat.eqb_eq, H2. lia.
  Qed.
  Definition local_sum (q : nat * nat) (st : variable -> nat) : R := rsum (map (fun c => exp (ex q c / T)) (agree fs (fst q) st)).
  Lemma factor_sum q st : fst q < length fs -> snd q < arity fs (fst q) ->
    rsum (map (fun c => exp (pots (fst q) c / T)) (agree fs (fst q) st)) =
    (exp ((rsum (map (fun u => m (fst q) u (st (var_at fs (fst q) u))) (seq 0 (arity fs (fst q)))) - rsum (map (fun x => b x (st x)) (kids fs q))) / T) * local_sum q st)%R.
  Proof.
    destruct q as [f u]. cbn [fst snd]. intros Hf Hu. unfold local_sum. rewrite <- rsum_scal. apply rsum_ext. intros c Hc. apply In_agree in Hc. cbn [fst] in Hc. destruct Hc as [Hc Hst].
    rewrite <- exp_plus. f_equal. unfold ex, excess. cbn [fst snd]. unfold score, svar, kids. cbn [fst snd]. rewrite map_map. fold v.
    rewrite (rsum_ext (fun u0 => v f u0 (config_at_slot fs f c u0)) (fun u0 => b (var_at fs f u0) (st (var_at fs f u0)) - m f u0 (st (var_at fs f u0)))%R).
    - rewrite rsum_minus. rewrite (rsum_remove (fun u0 => b (var_at fs f u0) (st (var_at fs f u0))) (seq 0 (arity fs f)) u); [|apply seq_NoDup|apply in_seq; lia].
      rewrite (Hst u Hu). fold b. field. exact HT.
    - intros u0 Hu0. apply in_seq in Hu0. rewrite (Hst u0) by lia. unfold v. rewrite vtof_belief by lia. reflexivity.
  Qed.
  Lemma weight_order st r ord others : (forall q, In q ord -> fst q < length fs /\ snd q < arity fs (fst q)) ->
    Permutation (map fst ord) (seq 0 (length fs)) -> Permutation xs (r :: flat_map (kids fs) ord ++ others) ->
    state_weight fs pots T ev xs st = (exp ((b r (st r) + rsum (map (fun x => b x (st x)) others)) / T) * rprod (map (fun q => local_sum q st) ord))%R.
  Proof.
    intros Hq Hp Hx. unfold state_weight.
    rewrite <- (rprod_perm _ _ (Permutation_map _ Hp)), map_map.
    rewrite (rprod_ext _ (fun q => exp ((rsum (map (fun u => m (fst q) u (st (var_at fs (fst q) u))) (seq 0 (arity fs (fst q)))) - rsum (map (fun x => b x (st x)) (kids fs q))) / T) * local_sum q st)%R)
      by (intros q Hi; destruct (Hq q Hi); now apply factor_sum).
    rewrite rprod_mult, rprod_exp, <- Rmult_assoc, <- exp_plus. f_equal. f_equal. rewrite rsum_div, rsum_minus.
    assert (E1 : rsum (map (fun x => b x (st x)) xs) =
      (rsum (map (fun x => ev x (st x)) xs) + rsum (map (fun q => rsum (map (fun u => m (fst q) u (st (var_at fs (fst q) u))) (seq 0 (arity fs (fst q))))) ord))%R).
    { unfold b, text_belief. rewrite rsum_plus. f_equal. unfold slots_of.
      rewrite (rsum_classes (fun fu => var_at fs (fst fu) (snd fu)) (fun x fu => m (fst fu) (snd fu) (st x)) xs (slots fs) Hnd).
      - unfold slots. rewrite rsum_flat_map. rewrite <- (rsum_perm _ _ (Permutation_map _ Hp)), map_map. apply rsum_ext. intros f _. rewrite map_map. reflexivity.
      - intros [f u] Hi. apply In_slots in Hi. cbn [fst snd] in *. apply Hxs. now apply var_in_edges. }
    rewrite (rsum_perm _ _ (Permutation_map (fun x => b x (st x)) Hx)) in E1. cbn [map] in E1. rewrite rsum_cons, map_app, rsum_app, rsum_flat_map in E1.
    replace (b r (st r) + rsum (map (fun x => b x (st x)) others))%R
      with (rsum (map (fun x => ev x (st x)) xs) + rsum (map (fun q => rsum (map (fun u => m (fst q) u (st (var_at fs (fst q) u))) (seq 0 (arity fs (fst q))))) ord)
            - rsum (map (fun x => rsum (map (fun x0 => b x0 (st x0)) (kids fs x))) ord))%R by lra.
    field. exact HT.
  Qed.

  (** Summing out the other variables of one factor. *)
  Lemma sum_kids r q (ord : list (nat * nat)) K : leaf fs r (fst q :: map fst ord) q -> fst q < length fs ->
    (forall s, s < snd (svar fs q) -> rsum (map (fun c => exp (ex q c / T)) (choices fs (fst q) (snd q) s)) = K) ->
    forall st, (forall x, In x xs -> st x < snd x) -> sum_states (kids fs q) st (local_sum q) = K.
  Proof.
    intros [[_ Huq] Hl] Hf HK st Hst. unfold local_sum.
    assert (Hparent : ~ In (svar fs q) (kids fs q)).
    { intros F. apply In_kids in F. destruct F as [u [Hu [Hne E]]]. destruct (Hl u Hu Hne) as [_ H].
      assert (F : q = (fst q, u)) by (apply H; [split; [now left|exact Huq]|symmetry; exact E]). apply Hne. rewrite F. reflexivity. }
    assert (Hkid : forall c u, u < arity fs (fst q) -> u <> snd q -> set_kids fs q c st (var_at fs (fst q) u) = config_at_slot fs (fst q) c u).
    { intros c u Hu Hne. unfold set_kids. destruct (find _ _) as [w|] eqn:E.
      - apply find_some in E. destruct E as [Hw E]. apply in_seq in Hw. apply Bool.andb_true_iff in E. destruct E as [_ E2]. apply var_eqb_eq in E2.
        destruct (Hl u Hu Hne) as [_ H]. assert (F : (fst q, w) = (fst q, u)) by (apply H; [split; [now left|cbn; lia]|exact E2]). now injection F as ->.
      - exfalso. assert (F := find_none _ _ E u ltac:(apply in_seq; lia)). cbn beta in F. rewrite (proj2 (var_eqb_eq _ _) eq_refl) in F. destruct (Nat.eqb_spec u (snd q)); [contradiction|discriminate]. }
    assert (Nk : NoDup (kids fs q)).
    { unfold kids. apply NoDup_map_on; [apply NoDup_filter, seq_NoDup|]. intros u w Hu Hw E. apply filter_In in Hu, Hw. destruct Hu as [Hu Hu'], Hw as [Hw Hw'].
      apply in_seq in Hu, Hw. destruct (Nat.eqb_spec w (snd q)) as [|Hne]; [discriminate|]. destruct (Hl w ltac:(lia) Hne) as [_ H].
      specialize (H (fst q, u)). assert (F : (fst q, u) = (fst q, w)) by (apply H; [split; [now left|cbn; lia]|exact E]). now injection F. }
    transitivity (sum_states (kids fs q) st (fun t => rsum (map (fun c => if forallb (fun y => set_kids fs q c st y =? t y) (kids fs q) then exp (ex q c / T) else 0%R)
      (choices fs (fst q) (snd q) (st (svar fs q)))))).
    - apply sum_ext. intros t t' H1 H2. unfold agree, choices. rewrite !rsum_filter_if. apply rsum_ext. intros c Hc.
      assert (Ep : t (svar fs q) = st (svar fs q)) by now apply (H2 (svar fs q)).
      destruct (Nat.eqb_spec (config_at_slot fs (fst q) c (snd q)) (st (svar fs q))) as [Es|Es].
      + assert (E : forallb (fun u => config_at_slot fs (fst q) c u =? t (var_at fs (fst q) u)) (seq 0 (arity fs (fst q)))
          = forallb (fun y => set_kids fs q c st y =? t' y) (kids fs q)); [|rewrite E; reflexivity].
        apply Bool.eq_true_iff_eq. rewrite !forallb_forall. split.
        * intros H y Hy. pose proof Hy as Hy'. apply In_kids in Hy. destruct Hy as [u [Hu [Hne <-]]]. rewrite Hkid by assumption.
          specialize (H u ltac:(apply in_seq; lia)). rewrite <- (proj1 (H1 _ Hy')). exact H.
        * intros H u Hu. apply in_seq in Hu. destruct (Nat.eq_dec u (snd q)) as [->|Hne].
          -- apply Nat.eqb_eq. unfold svar in *. congruence.
          -- assert (Hy : In (var_at fs (fst q) u) (kids fs q)) by (apply In_kids; exists u; repeat split; [lia|exact Hne]).
             specialize (H _ Hy). rewrite Hkid in H by (auto; lia). rewrite (proj1 (H1 _ Hy)). exact H.
      + assert (E : forallb (fun u => config_at_slot fs (fst q) c u =? t (var_at fs (fst q) u)) (seq 0 (arity fs (fst q))) = false); [|rewrite E; reflexivity].
        apply Bool.not_true_iff_false. rewrite forallb_forall. intros H. specialize (H (snd q) ltac:(apply in_seq; lia)). apply Nat.eqb_eq in H.
        unfold svar in *. congruence.
    - rewrite (sum_rsum (kids fs q) (choices fs (fst q) (snd q) (st (svar fs q))) st (fun c t => if forallb (fun y => set_kids fs q c st y =? t y) (kids fs q) then exp (ex q c / T) else 0%R)).
      rewrite <- (HK (st (svar fs q))) by (apply Hst, Hxs; now apply var_in_edges).
      apply rsum_ext. intros c Hc. apply choice_iff in Hc. apply sum_single; [exact Nk|]. intros y Hy. apply In_kids in Hy. destruct Hy as [u [Hu [Hne <-]]].
      rewrite Hkid by assumption. now apply (config_ok fs).
  Qed.
  (** Summing out all of them. *)
  Lemma sum_order r (K : nat * nat -> R) (ord : list (nat * nat)) : good fs r ord -> (forall q, In q ord -> fst q < length fs) ->
    (forall q, In q ord -> forall s, s < snd (svar fs q) -> rsum (map (fun c => exp (ex q c / T)) (choices fs (fst q) (snd q) s)) = K q) ->
    forall st, (forall x, In x xs -> st x < snd x) ->
    sum_states (flat_map (kids fs) (rev ord)) st (fun t => rprod (map (fun q => local_sum q t) ord)) = rprod (map K ord).
  Proof.
    induction ord as [|q ord IH]; intros Hg Hf HK st Hst; [reflexivity|]. cbn [good] in Hg. destruct Hg as [Hg [Hq Hleaf]].
    cbn [rev map]. rewrite flat_map_app. cbn [flat_map]. rewrite app_nil_r, sum_app, rprod_cons.
    rewrite <- (IH Hg (fun p Hp => Hf p (or_intror Hp)) (fun p Hp => HK p (or_intror Hp)) st Hst), <- sum_scal.
    apply sum_ext. intros t t' H1 H2.
    assert (Et : forall x, t x = t' x). { intros x. destruct (in_dec var_dec x (flat_map (kids fs) (rev ord))) as [Hi|Hi]; [now apply H1|]. destruct (H2 x Hi). congruence. }
    apply functional_extensionality in Et. subst t'.
    assert (Ht : forall x, In x xs -> t x < snd x). { intros x Hx. destruct (in_dec var_dec x (flat_map (kids fs) (rev ord))) as [Hi|Hi]; [now apply H1|]. destruct (H2 x Hi) as [-> _]. now apply Hst. }
    rewrite <- (sum_kids r q ord (K q) Hleaf (Hf q (or_introl eq_refl)) (HK q (or_introl eq_refl)) t Ht), Rmult_comm, <- sum_scal.
    apply sum_ext. intros w w' J1 J2.
    assert (Ew : forall x, w x = w' x). { intros x. destruct (in_dec var_dec x (kids fs q)) as [Hi|Hi]; [now apply J1|]. destruct (J2 x Hi). congruence. }
    apply functional_extensionality in Ew. subst w'. rewrite rprod_cons, Rmult_comm. f_equal. apply rprod_ext. intros p Hp. unfold local_sum.
    assert (E : agree fs (fst p) w = agree fs (fst p) t); [|now rewrite E]. unfold agree. apply filter_ext. intros c. apply forallb_ext_in. intros u Hu. apply in_seq in Hu.
    assert (E : w (var_at fs (fst p) u) = t (var_at fs (fst p) u)); [|now rewrite E]. apply (J2 (var_at fs (fst p) u)). intros F. apply In_kids in F.
    destruct F as [v0 [Hw [Hnw E]]]. destruct Hleaf as [_ Hl]. destruct (Hl v0 Hw Hnw) as [_ H]. assert (F : (fst p, u) = (fst q, v0)).
    { apply H; [split; [right; exact (in_map fst ord p Hp)|cbn; lia]|symmetry; exact E]. }
    injection F as F1 F2. apply Hq. rewrite <- F1. exact (in_map fst ord p Hp).
  Qed.

  Lemma mass_split r ys s : NoDup xs -> Permutation xs (r :: ys) -> s < snd r ->
    mass fs pots T ev xs r s = sum_states ys (assign (fun _ => 0) r s) (state_weight fs pots T ev xs).
  Proof.
    intros _ Hp Hs. unfold mass. rewrite (sum_perm _ _ Hp Hnd). cbn [sum_states].
    assert (Hr : ~ In r ys) by (apply (Permutation_NoDup Hp) in Hnd; now apply NoDup_cons_iff in Hnd).
    rewrite (rsum_ext _ (fun s' => if s' =? s then sum_states ys (assign (fun _ => 0) r s) (state_weight fs pots T ev xs) else 0%R)).
    - apply rsum_single_nat; [apply seq_NoDup|apply in_seq; lia].
    - intros s' Hs'. destruct (Nat.eqb_spec s' s) as [->|Hne].
      + apply sum_ext. intros t t' H1 H2. destruct (H2 r Hr) as [Er _]. rewrite assign_same in Er. rewrite Er, Nat.eqb_refl. f_equal.
        apply functional_extensionality. intros x. destruct (in_dec var_dec x ys) as [Hi|Hi]; [now apply H1|]. destruct (H2 x Hi). congruence.
      + transitivity (sum_states ys (assign (fun _ => 0) r s') (fun _ => 0 * 0)%R).
        * apply sum_ext. intros t t' H1 H2. destruct (H2 r Hr) as [Er _]. rewrite assign_same in Er. rewrite Er. destruct (Nat.eqb_spec s' s); [contradiction|lra].
        * rewrite sum_scal. lra.
  Qed.
  Lemma total_split r ys : Permutation xs (r :: ys) ->
    sum_states xs (fun _ => 0) (state_weight fs pots T ev xs) = rsum (map (mass fs pots T ev xs r) (seq 0 (snd r))).
  Proof.
    intros Hp. rewrite (sum_perm _ _ Hp Hnd). cbn [sum_states]. apply rsum_ext. intros s Hs. apply in_seq in Hs. symmetry. apply mass_split; [exact Hnd|exact Hp|lia].
  Qed.

  Lemma sum_exact_lemma r : acyclic fs -> (forall f, f < length fs -> 0 < arity fs f) -> In r xs ->
    exists k : R, (0 < k)%R /\ (forall s, s < snd r -> mass fs pots T ev xs r s = (k * exp (b r s / T))%R) /\
      sum_states xs (fun _ => 0) (state_weight fs pots T ev xs) = (k * rsum (map (fun s => exp (b r s / T)) (seq 0 (snd r))))%R.
  Proof.
    intros Hac Har Hr. destruct (order_exists fs r Hac Har (length fs) (seq 0 (length fs))) as [ord [Hg Hp]];
      [apply seq_length|apply seq_NoDup|intros f Hf; apply in_seq in Hf; lia|].
    assert (Hlt : forall q, In q ord -> fst q < length fs).
    { intros q Hq. assert (H : In (fst q) (seq 0 (length fs))) by (apply (Permutation_in _ Hp), in_map, Hq). apply in_seq in H. lia. }
    assert (Hua : forall q, In q ord -> snd q < arity fs (fst q)).
    { clear - Hg. induction ord as [|p ord IH]; intros q Hq; [destruct Hq|]. cbn [good] in Hg. destruct Hg as [H1 [_ [[_ H2] _]]].
      destruct Hq as [<-|Hq]; [exact H2|now apply IH]. }
    destruct (excess_sums ord) as [K HK]; [intros q Hq; split; [now apply Hlt|now apply Hua]|].
    destruct (good_kids fs r ord Hg) as [N1 N2].
    destruct (NoDup_incl_perm (r :: flat_map (kids fs) ord) xs) as [others Ho].
    { now constructor. }
    { intros x [<-|Hx]; [exact Hr|]. apply in_flat_map in Hx. destruct Hx as [q [Hq Hx]]. apply (kids_vars fs xs Hxs q); [now apply Hlt|exact Hx]. }
    cbn [app] in Ho.
    assert (Ho' : Permutation xs (r :: others ++ flat_map (kids fs) (rev ord))).
    { rewrite Ho. apply perm_skip. rewrite Permutation_app_comm. apply Permutation_app_head. apply Permutation_flat_map, Permutation_rev. }
    assert (Hoth : forall x, In x others -> In x xs) by (intros x Hx; apply (Permutation_in _ (Permutation_sym Ho)); right; apply in_or_app; now right).
    assert (Hnr : ~ In r others). { apply (Permutation_NoDup Ho') in Hnd. apply NoDup_cons_iff in Hnd. intros F. apply (proj1 Hnd), in_or_app. now left. }
    assert (Hno : forall x, In x others -> ~ In x (flat_map (kids fs) (rev ord))).
    { pose proof (Permutation_NoDup Ho' Hnd) as Hd. apply NoDup_cons_iff in Hd. destruct Hd as [_ Hd]. clear - Hd. intros x Hx F.
      induction others as [|y l IH]; [destruct Hx|]. cbn [app] in Hd. apply NoDup_cons_iff in Hd. destruct Hx as [->|Hx]; [apply (proj1 Hd), in_or_app; now right|now apply IH]. }
    set (C := sum_states others (fun _ => 0) (fun t => exp (rsum (map (fun x => b x (t x)) others) / T))).
    assert (HC : (0 < C)%R) by (apply sum_pos; [intros y Hy; apply Hpos; now apply Hoth|intros t; apply exp_pos]).
    assert (HKp : (0 < rprod (map K ord))%R). { apply rprod_pos. intros x Hx. apply in_map_iff in Hx. destruct Hx as [q [<- Hq]]. apply (HK q Hq). }
    assert (Hm : forall s, s < snd r -> mass fs pots T ev xs r s = ((rprod (map K ord) * C) * exp (b r s / T))%R).
    { intros s Hs. rewrite (mass_split r _ s Hnd Ho' Hs), sum_app. unfold C. rewrite (Rmult_comm (rprod _ * _)), <- Rmult_assoc, <- sum_scal.
      apply sum_ext. intros t t' H1 H2.
      assert (Etr : t r = s) by (destruct (H2 r Hnr) as [-> _]; apply assign_same).
      assert (Ht : forall x, In x xs -> t x < snd x).
      { intros x Hx. destruct (in_dec var_dec x others) as [Hi|Hi]; [now apply H1|]. destruct (var_dec x r) as [->|Hne]; [now rewrite Etr|].
        destruct (H2 x Hi) as [-> _]. rewrite assign_other by exact Hne. now apply Hpos. }
      rewrite <- (sum_order r K ord Hg Hlt (fun q Hq => proj2 (HK q Hq)) t Ht).
      rewrite (Rmult_comm (exp (b r s / T))), Rmult_assoc, <- exp_plus, Rmult_comm, <- sum_scal.
      apply sum_ext. intros w w' J1 J2.
      assert (Ew : forall x, w x = w' x). { intros x. destruct (in_dec var_dec x (flat_map (kids fs) (rev ord))) as [Hi|Hi]; [now apply J1|]. destruct (J2 x Hi). congruence. }
      apply functional_extensionality in Ew. subst w'.
      rewrite (weight_order w r ord others (fun q Hq => conj (Hlt q Hq) (Hua q Hq)) Hp Ho). f_equal. f_equal.
      assert (Er : w r = s). { rewrite <- Etr. apply (J2 r). intros F. apply N2. apply in_flat_map in F. destruct F as [q [Hq Hk]]. apply in_flat_map. exists q. split; [now apply in_rev|exact Hk]. }
      rewrite Er. rewrite (rsum_ext (fun x => b x (w x)) (fun x => b x (t' x)) others); [field; exact HT|].
      intros x Hx. destruct (J2 x (Hno x Hx)) as [-> _]. now destruct (H1 x Hx) as [-> _]. }
    exists (rprod (map K ord) * C)%R. split; [now apply Rmult_lt_0_compat|]. split; [exact Hm|].
    rewrite (total_split r _ Ho'), <- rsum_scal. apply rsum_ext. intros s Hs. apply in_seq in Hs. apply Hm. lia.
  Qed.
  Lemma marginal_exact_lemma r : acyclic fs -> (forall f, f < length fs -> 0 < arity fs f) -> In r xs ->
    forall s, s < snd r -> marginal fs pots T ev xs r s = gibbs (fun t => b r t / T)%R (snd r) s.
  Proof.
    intros Hac Har Hr s Hs. destruct (sum_exact_lemma r Hac Har Hr) as [k [Hk [E1 E2]]]. unfold marginal, gibbs. rewrite E2, E1 by exact Hs.
    assert (P : (0 < rsum (map (fun t => exp (b r t / T)) (seq 0 (snd r))))%R).
    { apply rsum_pos; [destruct (snd r); [lia|discriminate]|]. intros x Hx. apply in_map_iff in Hx. destruct Hx as [t [<- _]]. apply exp_pos. }
    field. split; lra.
  Qed.
End Exact.

(** ** Textbook belief propagation *)
Lemma fac_to_var_pos {A} (fs : list (sfactor A)) pots T v : T <> 0%R -> fac_to_var fs pots T v = fac_to_var_soft fs pots T v.
Proof. intros H. unfold fac_to_var. destruct (Req_EM_T T 0); [contradiction|reflexivity]. Qed.
Lemma C45_text_lemma {A} (fs : list (sfactor A)) pots T ev xs m n :
  T <> 0%R -> acyclic fs -> configs_ok fs -> covered fs -> (forall f, f < length fs -> 0 < arity fs f) ->
  NoDup xs -> incl (sf_edges fs) xs -> (forall x, In x xs -> 0 < snd x) ->
  length fs <= n ->
  (forall i, i < n -> unclipped fs (fac_to_var fs pots T (var_to_fac fs ev (text_bp fs pots T 0 ev m i)))) ->
  forall x, In x xs ->
    (forall s, s < snd x -> marginal fs pots T ev xs x s = gibbs (fun t => text_belief fs ev (text_bp fs pots T 0 ev m n) x t / T)%R (snd x) s) /\
    exists k : R, forall s, s < snd x -> (0 < mass fs pots T ev xs x s)%R /\
      text_belief fs ev (text_bp fs pots T 0 ev m n) x s = (T * ln (mass fs pots T ev xs x s) + k)%R.
Proof.
  intros HT Hac Hcfg Hcov Har Hnd Hxs Hpos Hn Hun x Hx.
  assert (Hfix : forall f u, f < length fs -> u < arity fs f ->
    upto_at fs (fac_to_var_soft fs pots T (var_to_fac fs ev (text_bp fs pots T 0 ev m n))) (text_bp fs pots T 0 ev m n) f u).
  { intros f u Hf Hu. rewrite <- fac_to_var_pos by exact HT. now apply converged. }
  split; [now apply (marginal_exact_lemma fs pots T ev _ xs HT Hnd Hxs Hpos Hcfg Hcov Hfix x Hac Har Hx)|].
  destruct (sum_exact_lemma fs pots T ev _ xs HT Hnd Hxs Hpos Hcfg Hcov Hfix x Hac Har Hx) as [k [Hk [E _]]].
  exists (- (T * ln k))%R. intros s Hs. rewrite E by exact Hs. split; [apply Rmult_lt_0_compat; [exact Hk|apply exp_pos]|].
  rewrite ln_mult by (auto; apply exp_pos). rewrite ln_exp. field. exact HT.
Qed.

(** ** The code *)
Lemma gibbs_ext b b' n s : s < n -> (forall t, t < n -> b t = b' t) -> gibbs b n s = gibbs b' n s.
Proof. intros Hs H. unfold gibbs. rewrite (H s Hs). rewrite (rsum_ext (fun t => exp (b t)) (fun t => exp (b' t)) (seq 0 n)); [reflexivity|]. intros t Ht. apply in_seq in Ht. rewrite H by lia. reflexivity. Qed.
Section Code.
  Context (vgs : list vgroup) (g : fgraph R) (T : R) (c : bp_ctx R).
  Hypothesis Hok : groups_ok vgs.
  Hypothesis Hr : reachable vgs g.
  Hypothesis Hwf : wf_groups (gr_groups g).
  Hypothesis Hbp : bp_of g T c.
  Context (a : bp_arrays R).
  Hypothesis Ha : arrays_of c a.
  Let fs := graph_factors 0%R (gr_groups g).
  Let pots := graph_pots (gr_groups g) (ba_log_potentials a).
  Let ne := length (enum_factors (gr_groups g)).
  Let lens := map snd (sf_edges fs).
  Let ev := read_ev (gr_vars_to_starts g) (ba_evidence a).
  Let xs := all_vars vgs.
  Let text := text_bp fs pots T 0 ev (read_msgs fs (ba_ftov_msgs a)).
  Context (n : nat).
  Hypothesis HT : T <> 0%R.
  Hypothesis Hpos : forall gr k, In gr vgs -> In k (vg_num_states gr) -> 0 < k.
  Hypothesis Hac : acyclic fs.
  Hypothesis Har : forall f, f < length fs -> 0 < arity fs f.
  Hypothesis Hn : length fs <= n.
  Hypothesis Hun : forall i, i < n -> unclipped fs (fac_to_var fs pots T (var_to_fac fs ev (text i))).
  Hypothesis Hsup : supported lens.
  Hypothesis Hfl : forall i, i <= n -> above_floor lens (unnormalised c a 0 i).
  Hypothesis Hir : forall i, i < n -> in_range fs pots ne T (var_to_fac fs ev (text i)).
  Let belief := text_belief fs ev (read_msgs fs (ba_ftov_msgs (run_bp c a n 0%R))).

  Lemma sum_run_arrays : arrays_of c (run_bp c a n 0%R).
  Proof. destruct Ha as [A1 [A2 A3]]. split; [exact A1|]. split; [|exact A3].
    destruct (run_length vgs g T c Hok Hr Hwf Hbp a Ha 0%R n) as [L _]. rewrite L. destruct (arrays_lengths vgs g T c Hok Hr Hwf Hbp a Ha) as [_ [L2 _]]. congruence. Qed.
  Lemma sum_tree_exact x : In x xs ->
    (forall s, s < snd x -> marginal fs pots T ev xs x s = gibbs (fun t => belief x t / T)%R (snd x) s) /\
    exists k : R, forall s, s < snd x -> (0 < mass fs pots T ev xs x s)%R /\ belief x s = (T * ln (mass fs pots T ev xs x s) + k)%R.
  Proof.
    intros Hx. assert (Hm : msg_eq fs (read_msgs fs (ba_ftov_msgs (run_bp c a n 0%R))) (text n)) by (apply (C39_lemma vgs g T c Hok Hr Hwf Hbp a Ha 0%R n Hsup Hfl Hir)).
    assert (Hcov : covered fs). { destruct (Nat.eq_dec n 0) as [E|Hne]; [intros f u s Hf; lia|]. apply (in_range_covered g T Hwf a _ (Hir 0 ltac:(lia))). }
    assert (Hpx : forall x, In x xs -> 0 < snd x).
    { intros y Hy. unfold xs, all_vars in Hy. apply in_concat in Hy. destruct Hy as [l [Hl Hy]]. apply in_map_iff in Hl. destruct Hl as [gr [<- Hg]].
      apply (Hpos gr); [exact Hg|]. rewrite <- (vg_variables_snd gr) by now apply (groups_ok_wf vgs). now apply in_map. }
    assert (Eb : forall s, s < snd x -> belief x s = text_belief fs ev (text n) x s).
    { intros s Hs. unfold belief. rewrite (text_belief_shift fs ev ev 0%R (read_msgs fs (ba_ftov_msgs (run_bp c a n 0%R))) (text n) x s); [lra|lra|exact Hm|exact Hs]. }
    destruct (C45_text_lemma fs pots T ev xs (read_msgs fs (ba_ftov_msgs a)) n HT Hac (graph_configs_ok (gr_groups g) Hwf) Hcov Har (all_vars_NoDup vgs Hok)
      (fun y Hy => edges_vars vgs g T c Hok Hr Hwf Hbp y Hy) Hpx Hn Hun x Hx) as [H1 [k H2]]. split.
    - intros s Hs. rewrite H1 by exact Hs. apply gibbs_ext; [exact Hs|]. intros t Ht. fold text. now rewrite Eb.
    - exists k. intros s Hs. rewrite Eb by exact Hs. now apply H2.
  Qed.
  Lemma C45_beliefs_lemma : exists b, get_beliefs c (run_bp c a n 0%R) = Ok b /\ map fst b = vgs /\
    forall gr, In gr vgs -> exists d, dget vg_eqb gr b = Some d /\ per_state_shape gr d /\
      forall i x, nth_error (vg_variables gr) i = Some x -> exists k : R,
        (forall s, s < snd x -> (0 < mass fs pots T ev xs x s)%R) /\
        row gr d i = map (fun s => Fin (T * ln (mass fs pots T ev xs x s) + k)%R) (seq 0 (snd x)) ++ repeat NInf (state_axis gr i - snd x).
  Proof.
    destruct (C33_lemma vgs g T c Hok Hr Hwf Hbp (run_bp c a n 0%R) sum_run_arrays Hpos) as [b [Eb [Kb Db]]]. exists b. split; [exact Eb|]. split; [exact Kb|].
    intros gr Hg. destruct (Db gr Hg) as [d [Ed [Sd Rd]]]. exists d. split; [exact Ed|]. split; [exact Sd|]. intros i x Hi.
    assert (Hx : In x xs).
    { unfold xs, all_vars. apply in_concat. exists (vg_variables gr). split; [now apply in_map|]. eapply nth_error_In. exact Hi. }
    destruct (sum_tree_exact x Hx) as [_ [k Hk]]. exists k. split; [intros s Hs; now apply Hk|]. rewrite (Rd i x Hi).
    f_equal. apply map_ext_in. intros s Hs. apply in_seq in Hs. apply f_equal. apply (Hk s). lia.
  Qed.
  Lemma C45_marginals_lemma : T = 1%R -> (forall gr, In gr vgs -> one_state gr = false) ->
    exists b r, get_beliefs c (run_bp c a n 0%R) = Ok b /\ get_marginals b = Ok r /\ map fst r = vgs /\
    forall gr, In gr vgs -> exists d, dget vg_eqb gr r = Some d /\ per_state_shape gr d /\
      forall i x, nth_error (vg_variables gr) i = Some x ->
        row gr d i = map (marginal fs pots T ev xs x) (seq 0 (snd x)) ++ repeat 0%R (state_axis gr i - snd x).
  Proof.
    intros E1 Hone. destruct (C35_lemma vgs g T c Hok Hr Hwf Hbp (run_bp c a n 0%R) sum_run_arrays Hpos Hone) as [b [r [Eb [Er [Kr Dr]]]]]. exists b, r.
    split; [exact Eb|]. split; [exact Er|]. split; [exact Kr|]. intros gr Hg. destruct (Dr gr Hg) as [d [Ed [Sd Rd]]]. exists d. split; [exact Ed|]. split; [exact Sd|].
    intros i x Hi. assert (Hx : In x xs).
    { unfold xs, all_vars. apply in_concat. exists (vg_variables gr). split; [now apply in_map|]. eapply nth_error_In. exact Hi. }
    rewrite (Rd i x Hi). f_equal. apply map_ext_in. intros s Hs. apply in_seq in Hs. rewrite (proj1 (sum_tree_exact x Hx)) by lia.
    apply gibbs_ext; [lia|]. intros t Ht. change (belief x t = belief x t / T)%R. rewrite E1. field.
  Qed.
End Code.

(** With hypotheses about the inputs only. *)
Lemma C45_small_lemma vgs (g : fgraph R) (c : bp_ctx R) : groups_ok vgs -> reachable vgs g -> wf_groups (gr_groups g) -> bp_of g 1%R c ->
  forall a, arrays_of c a ->
  let fs := graph_factors 0%R (gr_groups g) in
  let pots := graph_pots (gr_groups g) (ba_log_potentials a) in
  let ev := read_ev (gr_vars_to_starts g) (ba_evidence a) in
  let lens := map snd (sf_edges fs) in
  (forall gr k, In gr vgs -> In k (vg_num_states gr) -> 0 < k) -> (forall gr, In gr vgs -> one_state gr = false) ->
  acyclic fs -> (forall f, f < length fs -> 0 < arity fs f) ->
  forall B P D K P' B' M' N', moderate fs pots (length (enum_factors (gr_groups g))) ev B P D K ->
  small fs 1 pots ev (read_msgs fs (ba_ftov_msgs a)) P' B' M' N' ->
  supported lens -> above_floor lens (ba_ftov_msgs a) ->
  forall n, length fs <= n ->
  exists b r, get_beliefs c (run_bp c a n 0%R) = Ok b /\ get_marginals b = Ok r /\ map fst r = vgs /\
    forall gr, In gr vgs -> exists d, dget vg_eqb gr r = Some d /\ per_state_shape gr d /\
      forall i x, nth_error (vg_variables gr) i = Some x ->
        row gr d i = map (marginal fs pots 1 ev (all_vars vgs) x) (seq 0 (snd x)) ++ repeat 0%R (state_axis gr i - snd x).
Proof.
  intros Hok Hr Hwf Hbp a Ha fs pots ev lens Hpos Hone Hac Har B P D K P' B' M' N' Hmod Hsm Hsup Hfl n Hn.
  destruct (small_given vgs g 1%R c Hok Hr Hwf Hbp a Ha B P D K Hmod ltac:(lra) Hsup Hfl Hac P' B' M' N' Hsm) as [G1 [G2 G3]].
  apply (C45_marginals_lemma vgs g 1%R c Hok Hr Hwf Hbp a Ha n); auto.
Qed.
