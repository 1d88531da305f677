(** * Fixed points of belief propagation (towards C57). *)
From Verif Require Import NumPy Lists VGroup FGraph BPState BP SpecVGroup SpecFGraph SpecFactor SpecWiring SpecState SpecBP SpecText SpecBeliefs SpecTree SpecStable SpecConv SpecFix.
From Verif Require Import LemVGroup LemFGraph LemState LemNum LemNorm LemVtoF LemEnum LemText LemRun LemBeliefs LemShift LemPerm LemTree LemExact LemSum LemBruteSoft LemConv.
From Coq Require Import Reals Lra Lia Permutation Classical.
Local Open Scope nat_scope.

Lemma choose_nat (P : nat -> nat -> Prop) n : (forall i, i < n -> exists c, P i c) -> exists h, forall i, i < n -> P i (h i).
Proof.
  induction n as [|n IH]; intros H; [exists (fun _ => 0); intros i Hi; lia|].
  destruct IH as [h Hh]; [intros i Hi; apply H; lia|]. destruct (H n (Nat.lt_succ_diag_r n)) as [c Hc]. exists (fun i => if i =? n then c else h i).
  intros i Hi. destruct (Nat.eqb_spec i n) as [->|Hne]; [exact Hc|apply Hh; lia].
Qed.

Lemma In_opts {A} (fs : list (sfactor A)) f u s c : In c (choices fs f u s) <-> c < length (sf_configs (factor_at fs f)) /\ config_at_slot fs f c u = s.
Proof. unfold choices. rewrite filter_In, in_seq, Nat.eqb_eq. intuition lia. Qed.

Section Text.
  Context {A : Type} (fs : list (sfactor A)) (pots : nat -> nat -> R) (T d : R).
  Context (ev : variable -> nat -> R) (m : msg).
  Hypothesis Hcfg : configs_ok fs.
  Hypothesis Hcov : covered fs.
  Hypothesis Hd : (0 <= d < 1)%R.
  Hypothesis Hfix : msg_eq fs (text_step fs pots T d ev m) m.
  Let v := var_to_fac fs ev m.
  Let new := fac_to_var fs pots T v.
  Let b := text_belief fs ev m.
  Let cb f c := config_belief fs pots b m f c.

  Lemma cb_score f c : f < length fs -> cb f c = score fs pots v f c.
  Proof.
    intros Hf. unfold cb, config_belief, score. f_equal. apply rsum_ext. intros u Hu. apply in_seq in Hu. symmetry. apply vtof_belief; lia.
  Qed.
  (** New messages are the old ones up to a constant, except where they are clipped. *)
  Lemma fixed_const f u : f < length fs -> u < arity fs f -> exists k : R, forall s, s < snd (var_at fs f u) ->
    (new f u s <= m f u s + k)%R /\ ((-1000 < m f u s)%R -> new f u s = (m f u s + k)%R).
  Proof.
    intros Hf Hu. set (M := rmaxs (map (damp d m new f u) (seq 0 (snd (var_at fs f u))))). exists (M / (1 - d))%R. intros s Hs.
    pose proof (Hfix f u s Hf Hu Hs) as E. unfold text_step, normal in E. fold v new in E. fold M in E. unfold damp in E.
    assert (K : ((1 - d) * (M / (1 - d)) = M)%R) by (field; lra). set (k := (M / (1 - d))%R) in *.
    pose proof (Rmax_l (-1000) (d * m f u s + (1 - d) * new f u s - M)) as L1. pose proof (Rmax_r (-1000) (d * m f u s + (1 - d) * new f u s - M)) as L2. rewrite E in L1, L2. split.
    - apply Rmult_le_reg_l with (1 - d)%R; lra.
    - intros H. apply Rmult_eq_reg_l with (1 - d)%R; [|lra]. unfold Rmax in E. destruct (Rle_dec _ _); lra.
  Qed.
  Lemma cb_but f c u : f < length fs -> u < arity fs f -> cb f c = (score_but fs pots v f c u + (b (var_at fs f u) (config_at_slot fs f c u) - m f u (config_at_slot fs f c u)))%R.
  Proof. intros Hf Hu. rewrite cb_score by exact Hf. unfold v. rewrite (score_but_split fs pots ev m f c u) by assumption. rewrite vtof_belief by assumption. reflexivity. Qed.
  (** Max-product: the best configurations with a variable in a given state. *)
  Lemma fixed_max : T = 0%R -> forall f u, f < length fs -> u < arity fs f -> exists k : R, forall s, s < snd (var_at fs f u) ->
    (forall c, In c (choices fs f u s) -> (cb f c <= b (var_at fs f u) s + k)%R) /\
    ((-1000 < m f u s)%R -> exists c, In c (choices fs f u s) /\ cb f c = (b (var_at fs f u) s + k)%R).
  Proof.
    intros HT f u Hf Hu. destruct (fixed_const f u Hf Hu) as [k Hk]. exists k. intros s Hs. destruct (Hk s Hs) as [K1 K2].
    assert (En : new f u s = rmaxs (map (fun c => score_but fs pots v f c u) (choices fs f u s))) by (unfold new; rewrite HT; now rewrite fac_to_var_0).
    split.
    - intros c Hc. pose proof (proj1 (In_opts fs f u s c) Hc) as [_ Ec]. rewrite (cb_but f c u Hf Hu), Ec.
      assert (score_but fs pots v f c u <= new f u s)%R; [|lra]. rewrite En. apply rmaxs_ub. now apply (in_map (fun c => score_but fs pots v f c u)).
    - intros Hm. specialize (K2 Hm). assert (I : In (new f u s) (map (fun c => score_but fs pots v f c u) (choices fs f u s))).
      { rewrite En. apply rmaxs_In. pose proof (Hcov f u s Hf Hu Hs). destruct (choices fs f u s); [contradiction|discriminate]. }
      apply in_map_iff in I. destruct I as [c [Ec Hc]]. exists c. split; [exact Hc|]. pose proof (proj1 (In_opts fs f u s c) Hc) as [_ E].
      rewrite (cb_but f c u Hf Hu), E, Ec. lra.
  Qed.
  (** Sum-product: the probability of a state is that of the configurations with it. *)
  Lemma fixed_soft : (0 < T)%R -> forall f u, f < length fs -> u < arity fs f -> exists k : R, (0 < k)%R /\ forall s, s < snd (var_at fs f u) -> (-1000 < m f u s)%R ->
    rsum (map (fun c => exp (cb f c / T)) (choices fs f u s)) = (k * exp (b (var_at fs f u) s / T))%R.
  Proof.
    intros HT f u Hf Hu. destruct (fixed_const f u Hf Hu) as [k Hk]. exists (exp (k / T)). split; [apply exp_pos|]. intros s Hs Hm. destruct (Hk s Hs) as [_ K2]. specialize (K2 Hm).
    unfold new, fac_to_var in K2. destruct (Req_EM_T T 0) as [E0|_]; [lra|]. unfold fac_to_var_soft in K2.
    set (S := rsum (map (fun c => exp (score_but fs pots v f c u / T)) (choices fs f u s))) in *.
    assert (HS : (0 < S)%R).
    { apply rsum_pos; [pose proof (Hcov f u s Hf Hu Hs); destruct (choices fs f u s); [contradiction|discriminate]|].
      intros y Hy. apply in_map_iff in Hy. destruct Hy as [z [<- _]]. apply exp_pos. }
    assert (ES : S = exp ((m f u s + k) / T)). { rewrite <- K2. replace (T * ln S / T)%R with (ln S) by (field; lra). now rewrite exp_ln. }
    rewrite (rsum_ext _ (fun c => exp ((b (var_at fs f u) s - m f u s) / T) * exp (score_but fs pots v f c u / T))%R).
    - rewrite rsum_scal. fold S. rewrite ES, <- !exp_plus. f_equal. field. lra.
    - intros c Hc. apply In_opts in Hc. destruct Hc as [_ Ec]. rewrite (cb_but f c u Hf Hu), Ec, <- exp_plus. f_equal. field. lra.
  Qed.
  Lemma choices_partition (h : nat -> R) f u : f < length fs -> u < arity fs f ->
    rsum (map (fun s => rsum (map h (choices fs f u s))) (seq 0 (snd (var_at fs f u)))) = rsum (map h (seq 0 (length (sf_configs (factor_at fs f))))).
  Proof.
    intros Hf Hu. rewrite (rsum_ext _ (fun s => rsum (map (fun c => if config_at_slot fs f c u =? s then h c else 0%R) (seq 0 (length (sf_configs (factor_at fs f)))))))
      by (intros s _; unfold choices; apply LemBruteSoft.rsum_filter_if).
    rewrite rsum_swap. apply rsum_ext. intros c Hc. apply in_seq in Hc.
    rewrite (rsum_ext _ (fun s => if s =? config_at_slot fs f c u then h c else 0%R)) by (intros s _; now rewrite Nat.eqb_sym).
    apply rsum_single_nat; [apply seq_NoDup|]. apply in_seq. pose proof (config_ok fs Hcfg f c u Hf ltac:(lia) Hu). lia.
  Qed.
  Lemma fixed_prob : (0 < T)%R -> forall f u, f < length fs -> u < arity fs f -> (forall s, s < snd (var_at fs f u) -> (-1000 < m f u s)%R) ->
    forall s, s < snd (var_at fs f u) ->
    gibbs (fun s => b (var_at fs f u) s / T)%R (snd (var_at fs f u)) s = rsum (map (config_prob fs pots T b m f) (choices fs f u s)).
  Proof.
    intros HT f u Hf Hu Hm s Hs. destruct (fixed_soft HT f u Hf Hu) as [k [Hk E]]. unfold config_prob, gibbs.
    change (fun c => exp (config_belief fs pots b m f c / T) / rsum (map (fun t => exp (config_belief fs pots b m f t / T)) (seq 0 (length (sf_configs (factor_at fs f))))))%R
      with (fun c => exp (cb f c / T) / rsum (map (fun t => exp (cb f t / T)) (seq 0 (length (sf_configs (factor_at fs f))))))%R.
    rewrite rsum_div, (E s Hs (Hm s Hs)), <- (choices_partition (fun c => exp (cb f c / T)) f u Hf Hu).
    rewrite (rsum_ext (fun s => rsum (map (fun c => exp (cb f c / T)) (choices fs f u s))) (fun s => k * exp (b (var_at fs f u) s / T))%R) by (intros t Ht; apply in_seq in Ht; apply E; [lia|apply Hm; lia]).
    rewrite rsum_scal. assert (0 < rsum (map (fun t => exp (b (var_at fs f u) t / T)) (seq 0 (snd (var_at fs f u)))))%R; [|field; lra].
    apply rsum_pos; [destruct (snd (var_at fs f u)); [lia|discriminate]|]. intros y Hy. apply in_map_iff in Hy. destruct Hy as [z [<- _]]. apply exp_pos.
  Qed.

  (** ** Optimality of decoded states *)
  Context (xs : list variable).
  Hypothesis Hnd : NoDup xs.
  Hypothesis Hxs : incl (sf_edges fs) xs.
  Hypothesis HT0 : T = 0%R.
  Hypothesis Har : forall f, f < length fs -> 0 < arity fs f.
  Context (st : variable -> nat).
  Hypothesis Hst : forall x, In x xs -> st x < snd x.
  Hypothesis Hlead : forall x s, In x xs -> s < snd x -> s <> st x -> (b x s < b x (st x))%R.
  Hypothesis Hmsg : forall f u, f < length fs -> u < arity fs f -> (-1000 < m f u (st (var_at fs f u)))%R.
  Lemma slot_var f u : f < length fs -> u < arity fs f -> In (var_at fs f u) xs.
  Proof. intros Hf Hu. apply Hxs. now apply var_in_edges. Qed.
  (** The decoded states extend to best configurations of all factors. *)
  Lemma best_config f : f < length fs -> exists c, c < length (sf_configs (factor_at fs f)) /\
    (forall u, u < arity fs f -> config_at_slot fs f c u = st (var_at fs f u)) /\
    (forall c', c' < length (sf_configs (factor_at fs f)) -> (cb f c' <= cb f c)%R).
  Proof.
    intros Hf. set (nc := length (sf_configs (factor_at fs f))).
    assert (Hn : map (cb f) (seq 0 nc) <> []).
    { pose proof (Hcov f 0 (st (var_at fs f 0)) Hf (Har f Hf) (Hst _ (slot_var f 0 Hf (Har f Hf)))) as H.
      destruct (choices fs f 0 (st (var_at fs f 0))) as [|c0 l] eqn:E; [contradiction|]. assert (I : In c0 (choices fs f 0 (st (var_at fs f 0)))) by (rewrite E; now left).
      apply In_opts in I. destruct I as [I _]. unfold nc. destruct (length (sf_configs (factor_at fs f))); [lia|discriminate]. }
    pose proof (rmaxs_In _ Hn) as I. apply in_map_iff in I. destruct I as [c [Ec Hc]]. apply in_seq in Hc. exists c. split; [lia|].
    assert (Best : forall c', c' < nc -> (cb f c' <= cb f c)%R). { intros c' Hc'. rewrite Ec. apply rmaxs_ub. apply in_map. apply in_seq. lia. }
    split; [|exact Best]. intros u Hu. pose proof (slot_var f u Hf Hu) as Hx.
    destruct (Nat.eq_dec (config_at_slot fs f c u) (st (var_at fs f u))) as [E|E]; [exact E|exfalso].
    destruct (fixed_max HT0 f u Hf Hu) as [k Hk].
    assert (Hcs : config_at_slot fs f c u < snd (var_at fs f u)) by (apply (config_ok fs Hcfg f c u Hf); [fold nc; lia|exact Hu]).
    destruct (Hk _ Hcs) as [U _]. specialize (U c). rewrite In_opts in U. specialize (U (conj (proj2 Hc) eq_refl)).
    destruct (Hk _ (Hst _ Hx)) as [_ V]. destruct (V (Hmsg f u Hf Hu)) as [c' [Hc' E']]. apply In_opts in Hc'. destruct Hc' as [Hc' _].
    specialize (Best c' Hc'). specialize (Hlead _ _ Hx Hcs E). lra.
  Qed.
  Lemma weighted (E : R) (y w : nat -> R) (p : nat -> bool) l : (E <= 0)%R -> (forall u, In u l -> (E <= y u)%R) -> (forall u, (0 <= w u)%R) ->
    (rsum (map w (filter p l)) <= 1)%R -> (E <= rsum (map (fun u => (if p u then w u else 0) * y u) l))%R.
  Proof.
    intros HE Hy Hw Hs. rewrite LemBruteSoft.rsum_filter_if in Hs.
    apply Rle_trans with (rsum (map (fun u => E * (if p u then w u else 0))%R l)).
    - rewrite rsum_scal. assert (0 <= rsum (map (fun x => if p x then w x else 0%R) l))%R; [|apply Rle_trans with (E * 1)%R; [lra|]; apply Rmult_le_compat_neg_l; lra].
      apply rsum_nonneg. intros z Hz. apply in_map_iff in Hz. destruct Hz as [u [<- _]]. destruct (p u); [apply Hw|lra].
    - apply rsum_le. intros u Hu. rewrite (Rmult_comm E). apply Rmult_le_compat_l; [destruct (p u); [apply Hw|lra]|now apply Hy].
  Qed.
  Lemma fixed_optimal : exists cf, joint fs xs st cf /\ forall S st' cf', loosely_coupled fs S -> joint fs xs st' cf' ->
    (forall x, In x xs -> S x = false -> st' x = st x) -> (joint_score fs pots ev xs st' cf' <= joint_score fs pots ev xs st cf)%R.
  Proof.
    destruct (choose_nat (fun f c => c < length (sf_configs (factor_at fs f)) /\
      (forall u, u < arity fs f -> config_at_slot fs f c u = st (var_at fs f u)) /\
      (forall c', c' < length (sf_configs (factor_at fs f)) -> (cb f c' <= cb f c)%R)) (length fs) best_config) as [cf Hcf].
    exists cf. assert (Hco : consistent fs st cf) by (intros f Hf; destruct (Hcf f Hf) as [H1 [H2 _]]; now split).
    split; [split; assumption|]. intros S st' cf' [w [Hw0 [Hw1 Hw2]]] [Hst' Hco'] Hout.
    rewrite (score_beliefs fs pots ev m xs Hnd Hxs st cf Hco), (score_beliefs fs pots ev m xs Hnd Hxs st' cf' Hco'). fold v b.
    set (y := fun x => (b x (st' x) - b x (st x))%R).
    assert (Hy : forall x, In x xs -> (y x <= 0)%R).
    { intros x Hx. unfold y. destruct (Nat.eq_dec (st' x) (st x)) as [->|Hne]; [lra|]. pose proof (Hlead x _ Hx (Hst' x Hx) Hne). lra. }
    assert (Hy0 : forall x, In x xs -> S x = false -> y x = 0%R) by (intros x Hx Hs; unfold y; rewrite (Hout x Hx Hs); lra).
    assert (Hf : forall f, f < length fs -> (score fs pots v f (cf' f) - score fs pots v f (cf f)
        <= rsum (map (fun u => (if S (var_at fs f u) then w f u else 0) * y (var_at fs f u)) (seq 0 (arity fs f))))%R).
    { intros f Hf. rewrite <- !cb_score by exact Hf. destruct (Hcf f Hf) as [C1 [C2 C3]]. destruct (Hco' f Hf) as [D1 D2].
      apply (weighted _ (fun u => y (var_at fs f u)) (w f) (fun u => S (var_at fs f u))); [specialize (C3 _ D1); lra| |apply Hw0|now apply Hw1].
      intros u Hu. apply in_seq in Hu. assert (Hu' : u < arity fs f) by lia. pose proof (slot_var f u Hf Hu') as Hx. destruct (fixed_max HT0 f u Hf Hu') as [k Hk].
      destruct (Hk _ (Hst' _ Hx)) as [U _]. specialize (U (cf' f)). rewrite In_opts in U. specialize (U (conj D1 (D2 u Hu'))).
      destruct (Hk _ (Hst _ Hx)) as [_ V]. destruct (V (Hmsg f u Hf Hu')) as [c [Hc Ec]]. apply In_opts in Hc. destruct Hc as [Hc _]. specialize (C3 c Hc). unfold y. lra. }
    apply Rminus_le.
    apply Rle_trans with (rsum (map (fun x => y x * (1 - rsum (map (fun fu => 1 - (if S x then w (fst fu) (snd fu) else 0)) (slots_of fs x))))%R xs)).
    - rewrite (rsum_ext (fun x => y x * (1 - rsum (map (fun fu => 1 - (if S x then w (fst fu) (snd fu) else 0)) (slots_of fs x))))%R
        (fun x => y x - rsum (map (fun fu => y x * (1 - (if S x then w (fst fu) (snd fu) else 0))) (slots_of fs x)))%R)
        by (intros x _; rewrite rsum_scal; ring).
      rewrite (rsum_minus y). unfold slots_of.
      rewrite (rsum_classes (fun fu => var_at fs (fst fu) (snd fu)) (fun x fu => y x * (1 - (if S x then w (fst fu) (snd fu) else 0)))%R xs (slots fs) Hnd).
      2:{ intros [f u] Hq. apply In_slots in Hq. cbn [fst snd] in *. now apply slot_var. }
      unfold slots. rewrite rsum_flat_map. unfold y at 1. rewrite (rsum_minus (fun x => b x (st' x))).
      match goal with |- (?a + ?p - (?c + ?q) <= ?a - ?c - ?r)%R => enough (p - q + r <= 0)%R by lra end.
      rewrite <- rsum_minus, <- rsum_plus. apply Rle_trans with (rsum (map (fun _ : nat => 0%R) (seq 0 (length fs)))); [|rewrite rsum_const; lra].
      apply rsum_le. intros f Hi. apply in_seq in Hi. specialize (Hf f ltac:(lia)). rewrite map_map. cbn [fst snd].
      rewrite (rsum_ext (fun u => y (var_at fs f u) * (1 - (if S (var_at fs f u) then w f u else 0)))%R
        (fun u => (b (var_at fs f u) (st' (var_at fs f u)) - b (var_at fs f u) (st (var_at fs f u))) - (if S (var_at fs f u) then w f u else 0) * y (var_at fs f u))%R) by (intros u _; unfold y; ring).
      rewrite !rsum_minus. lra.
    - apply Rle_trans with (rsum (map (fun _ : variable => 0%R) xs)); [|rewrite rsum_const; lra]. apply rsum_le. intros x Hx.
      destruct (S x) eqn:Es; [|rewrite (Hy0 x Hx Es); lra]. pose proof (Hw2 x Es). rewrite <- (Rmult_0_r (y x)). apply Rmult_le_compat_neg_l; [now apply Hy|lra].
  Qed.
End Text.

(** Factors with all configurations: no message is below minus the range of the potentials. *)
Lemma fixed_floor {A} (fs : list (sfactor A)) pots T d ev m w : configs_ok fs -> all_configs fs -> (forall f u, f < length fs -> u < arity fs f -> 0 < snd (var_at fs f u)) ->
  (0 <= T)%R -> (0 <= d < 1)%R -> pots_within fs pots w -> msg_eq fs (text_step fs pots T d ev m) m ->
  forall f u s, f < length fs -> u < arity fs f -> s < snd (var_at fs f u) -> (- w <= m f u s)%R.
Proof.
  intros Hcfg Hall Hpos HT Hd Hp Hfix f u s Hf Hu Hs. set (new := fac_to_var fs pots T (var_to_fac fs ev m)).
  set (l := map (damp d m new f u) (seq 0 (snd (var_at fs f u)))).
  assert (Hn : l <> []) by (unfold l; specialize (Hpos f u Hf Hu); destruct (snd (var_at fs f u)); [lia|discriminate]).
  assert (E : forall s, s < snd (var_at fs f u) -> m f u s = Rmax (-1000) (d * m f u s + (1 - d) * new f u s - rmaxs l)).
  { intros t Ht. symmetry. exact (Hfix f u t Hf Hu Ht). }
  assert (Hneg : forall s, s < snd (var_at fs f u) -> (m f u s <= 0)%R).
  { intros t Ht. rewrite (E t Ht). apply Rmax_lub; [lra|].
    assert (damp d m new f u t <= rmaxs l)%R by (apply rmaxs_ub; unfold l; apply in_map, in_seq; lia). unfold damp in H. lra. }
  pose proof (rmaxs_In l Hn) as I. unfold l in I at 2. apply in_map_iff in I. destruct I as [t [Et Ht]]. apply in_seq in Ht. unfold damp in Et.
  pose proof (Hneg t ltac:(lia)) as Nt. pose proof (fac_to_var_range fs Hcfg Hall Hpos T pots (var_to_fac fs ev m) w f u t s HT Hp Hf Hu ltac:(lia) Hs) as Rg. fold new in Rg.
  pose proof (E s Hs) as Es. pose proof (Rmax_r (-1000) (d * m f u s + (1 - d) * new f u s - rmaxs l)) as L. rewrite <- Es in L.
  assert (P1 : ((1 - d) * (new f u t - new f u s) <= (1 - d) * w)%R) by (apply Rmult_le_compat_l; lra).
  assert (P2 : (d * m f u t <= 0)%R) by (rewrite <- (Rmult_0_r d); apply Rmult_le_compat_l; lra).
  apply (Rmult_le_reg_l (1 - d)); lra.
Qed.

(** ** Trees and loops *)
Lemma rsum_at_most_one {X} (p : X -> bool) (h : X -> R) l : NoDup l -> (forall x y, In x l -> In y l -> p x = true -> p y = true -> x = y) ->
  (forall x, In x l -> p x = true -> (h x <= 1)%R) -> (forall x, In x l -> p x = false -> h x = 0%R) -> (rsum (map h l) <= 1)%R.
Proof.
  induction 1 as [|x l Hx Hnd IH]; intros Hu Hp Hn; cbn [map]; [rewrite rsum_nil; lra|]. rewrite rsum_cons. destruct (p x) eqn:E.
  - rewrite (rsum_ext h (fun _ => 0%R)).
    + rewrite rsum_const. pose proof (Hp x (or_introl eq_refl) E). lra.
    + intros y Hy. apply Hn; [now right|]. destruct (p y) eqn:Ey; [|reflexivity]. exfalso. apply Hx.
      rewrite (Hu x y (or_introl eq_refl) (or_intror Hy) E Ey). exact Hy.
  - rewrite (Hn x (or_introl eq_refl) E). enough (rsum (map h l) <= 1)%R by lra. apply IH; intros; [apply Hu; auto; now right|apply Hp; auto; now right|apply Hn; auto; now right].
Qed.
Lemma member_In S x : member S x = true <-> In x S.
Proof.
  unfold member. rewrite existsb_exists. split.
  - intros [y [Hy E]]. apply var_eqb_eq in E. now subst y.
  - intros H. exists x. split; [exact H|]. now apply var_eqb_eq.
Qed.
Lemma forest_loose {A} (fs : list (sfactor A)) S : forest fs S -> loosely_coupled fs (member S).
Proof.
  induction 1 as [|x S HS [w [W0 [W1 W2]]] Hx Hone Hpar].
  - exists (fun _ _ => 0%R). split; [intros; lra|]. split; [|intros x Hx; discriminate]. intros f Hf. rewrite rsum_const. lra.
  - set (tb := fun f => existsb (fun u => member S (var_at fs f u)) (seq 0 (arity fs f))).
    assert (Htb : forall f, tb f = true <-> touches fs f S).
    { intros f. unfold tb. rewrite existsb_exists. split; intros [u [Hu Hm]]; exists u; rewrite in_seq, member_In in *; split; try assumption; lia. }
    set (w' := fun f u => if var_eqb (var_at fs f u) x then if tb f then 0%R else 1%R else w f u). exists w'. split; [|split].
    + intros f u. unfold w'. destruct (var_eqb _ _); [destruct (tb f); lra|apply W0].
    + intros f Hf. rewrite rsum_filter_if. specialize (W1 f Hf). rewrite rsum_filter_if in W1. destruct (tb f) eqn:Et.
      * eapply Rle_trans; [|exact W1]. apply Req_le, rsum_ext. intros u _. unfold w'. rewrite Et. unfold member at 1. cbn [existsb]. fold (member S (var_at fs f u)).
        destruct (var_eqb (var_at fs f u) x) eqn:E; [|reflexivity]. cbn [orb]. apply var_eqb_eq in E. rewrite E.
        destruct (member S x) eqn:Em; [|reflexivity]. apply member_In in Em. contradiction.
      * apply (rsum_at_most_one (fun u => var_eqb (var_at fs f u) x)); [apply seq_NoDup| | |].
        -- intros u u' Hu Hu' E E'. apply in_seq in Hu, Hu'. apply var_eqb_eq in E, E'. apply (Hone f); apply In_slots_of; (split; [assumption|split; [lia|assumption]]).
        -- intros u _ E. unfold w'. rewrite E, Et. destruct (member _ _); lra.
        -- intros u Hu E. unfold member. cbn [existsb]. rewrite E. cbn [orb]. fold (member S (var_at fs f u)). destruct (member S (var_at fs f u)) eqn:Em; [|reflexivity].
           exfalso. assert (tb f = true); [|congruence]. unfold tb. apply existsb_exists. now exists u.
    + intros y Hy. unfold member in Hy. cbn [existsb] in Hy. fold (member S y) in Hy. destruct (var_eqb y x) eqn:E.
      * apply var_eqb_eq in E. subst y. apply (rsum_at_most_one (fun fu => tb (fst fu))).
        -- apply NoDup_filter, NoDup_slots.
        -- intros [f u] [f' u'] H H' T T'. cbn [fst] in T, T'. apply Htb in T, T'. pose proof (Hpar f u f' u' H H' T T') as Ef. subst f'. f_equal. exact (Hone f u u' H H').
        -- intros [f u] H T. apply In_slots_of in H. destruct H as [_ [_ H]]. unfold w'. cbn [fst snd] in *. rewrite H, (proj2 (var_eqb_eq x x) eq_refl), T. lra.
        -- intros [f u] H T. apply In_slots_of in H. destruct H as [_ [_ H]]. unfold w'. cbn [fst snd] in *. rewrite H, (proj2 (var_eqb_eq x x) eq_refl), T. lra.
      * cbn [orb] in Hy. eapply Rle_trans; [|exact (W2 y Hy)]. apply Req_le, rsum_ext. intros [f u] H. apply In_slots_of in H. destruct H as [_ [_ H]]. unfold w'. cbn [fst snd]. rewrite H, E. reflexivity.
Qed.
Lemma degrees_loose {A} (fs : list (sfactor A)) S : degrees fs 2 2 -> loosely_coupled fs S.
Proof.
  intros [D1 D2]. exists (fun _ _ => (1 / 2)%R). split; [intros; lra|]. split.
  - intros f Hf. rewrite rsum_filter_if. apply Rle_trans with (rsum (map (fun _ : nat => (1 / 2)%R) (seq 0 (arity fs f)))).
    + apply rsum_le. intros u _. destruct (S _); lra.
    + rewrite rsum_const, seq_length. specialize (D2 f Hf). apply le_INR in D2. cbn in D2. lra.
  - intros x _. rewrite rsum_const. specialize (D1 x). apply le_INR in D1. cbn in D1. lra.
Qed.

Lemma step_eq {A} (fs : list (sfactor A)) pots T d ev m m' : configs_ok fs -> (forall f u, f < length fs -> u < arity fs f -> 0 < snd (var_at fs f u)) ->
  msg_eq fs m m' -> msg_eq fs (text_step fs pots T d ev m) (text_step fs pots T d ev m').
Proof.
  intros Hcfg Hpos E. unfold text_step. apply normal_cong; [exact Hpos|]. intros f u s Hf Hu Hs. unfold damp. rewrite (E f u s Hf Hu Hs).
  rewrite (fac_to_var_cong fs pots Hcfg T _ (var_to_fac fs ev m')); [reflexivity| |exact Hf|exact Hu|exact Hs].
  now apply var_to_fac_cong.
Qed.
Lemma fixed_step {A} (fs : list (sfactor A)) pots T d ev m : configs_ok fs -> (forall f u, f < length fs -> u < arity fs f -> 0 < snd (var_at fs f u)) ->
  msg_eq fs m (text_bp fs pots T d ev m 1) -> msg_eq fs (text_step fs pots T d ev m) m.
Proof.
  intros Hcfg Hpos E. change (msg_eq fs m (text_step fs pots T d ev (normal fs m))) in E.
  assert (N : msg_eq fs (normal fs m) m).
  { eapply msg_eq_trans; [apply normal_cong; [exact Hpos|exact E]|]. eapply msg_eq_trans; [apply normal_normal|]. now apply msg_eq_sym. }
  eapply msg_eq_trans; [|apply msg_eq_sym, E]. apply step_eq; [exact Hcfg|exact Hpos|]. now apply msg_eq_sym.
Qed.
Lemma first_best_unique b n s t : first_best b n s -> first_best b n t -> s = t.
Proof.
  intros [S1 [S2 S3]] [T1 [T2 T3]]. destruct (Nat.lt_trichotomy s t) as [H|[H|H]]; [|exact H|].
  - specialize (T3 s H). specialize (S2 t T1). lra.
  - specialize (S3 t H). specialize (T2 s S1). lra.
Qed.

Section Graph.
  Context (vgs : list vgroup) (g : fgraph R) (T : R) (c : bp_ctx R).
  Hypothesis Hok : groups_ok vgs.
  Hypothesis Hr : reachable vgs g.
  Hypothesis Hwf : wf_groups (gr_groups g).
  Hypothesis Hbp : bp_of g T c.
  Context (a : bp_arrays R).
  Hypothesis Ha : arrays_of c a.
  Hypothesis Hpos : forall gr n, In gr vgs -> In n (vg_num_states gr) -> 0 < n.
  Let fs := graph_factors 0%R (gr_groups g).
  Let pots := graph_pots (gr_groups g) (ba_log_potentials a).
  Let ne := length (enum_factors (gr_groups g)).
  Let lens := map snd (sf_edges fs).
  Let evs := read_ev (gr_vars_to_starts g) (ba_evidence a).
  Let m := read_msgs fs (ba_ftov_msgs a).
  Let xs := all_vars vgs.
  Let bel := text_belief fs evs m.
  Let sta x := argmax (map (fun s => Fin (bel x s)) (seq 0 (snd x)) ++ repeat NInf 0).

  Lemma var_group x : In x xs -> exists gr i, In gr vgs /\ nth_error (vg_variables gr) i = Some x.
  Proof.
    intros Hx. unfold xs, all_vars in Hx. apply in_concat in Hx. destruct Hx as [l [Hl Hx]]. apply in_map_iff in Hl. destruct Hl as [gr [<- Hg]].
    apply In_nth_error in Hx. destruct Hx as [i Hi]. now exists gr, i.
  Qed.
  Lemma var_some x : In x xs -> 0 < snd x.
  Proof. intros Hx. destruct (var_group x Hx) as [gr [i [Hg Hi]]]. exact (LemBeliefs.var_pos vgs Hok Hpos gr i x Hg Hi). Qed.
  Lemma tables_belief : exists r, get_beliefs c a = Ok r /\ belief_table vgs r bel.
  Proof.
    destruct (C33_lemma vgs g T c Hok Hr Hwf Hbp a Ha Hpos) as [r [Er [_ Dr]]]. exists r. split; [exact Er|].
    intros gr Hg. destruct (Dr gr Hg) as [d [Ed [_ Rd]]]. exists d. split; [exact Ed|]. intros i x s Hi Hs. rewrite (Rd i x Hi).
    rewrite nth_error_app1 by (rewrite map_length, seq_length; exact Hs).
    apply (map_nth_error (fun s => Fin (bel x s)) s (seq 0 (snd x))).
    rewrite (nth_error_nth' _ 0) by (rewrite seq_length; exact Hs). now rewrite seq_nth.
  Qed.
  Lemma tables_state : (forall gr, In gr vgs -> one_state gr = false) ->
    exists r q, get_beliefs c a = Ok r /\ decode_map_states r = Ok q /\ belief_table vgs r bel /\ state_table vgs q sta.
  Proof.
    intros Hone. destruct tables_belief as [r [Er Tr]]. destruct (C34_lemma vgs g T c Hok Hr Hwf Hbp a Ha Hpos Hone) as [r' [q [Er' [Eq [_ Dq]]]]].
    rewrite Er in Er'. injection Er' as <-. exists r, q. do 3 (split; [assumption|]). intros gr Hg.
    destruct (Dq gr Hg) as [d [Ed [_ Cd]]]. exists d. split; [exact Ed|]. intros i x Hi. destruct (Cd i x Hi) as [s [-> Fs]]. f_equal.
    refine (first_best_unique _ _ _ _ Fs _). apply argmax_first_best. exact (LemBeliefs.var_pos vgs Hok Hpos gr i x Hg Hi).
  Qed.
  Lemma edges_in : incl (sf_edges fs) xs.
  Proof. intros x Hx. apply (edges_vars vgs g T c Hok Hr Hwf Hbp). exact Hx. Qed.

  Lemma C57_reparametrise_lemma : exists r b, get_beliefs c a = Ok r /\ belief_table vgs r b /\
    forall st cf, joint fs xs st cf -> joint_score fs pots evs xs st cf =
      (rsum (map (fun x => b x (st x)) xs) + rsum (map (fun f => config_belief fs pots b m f (cf f)
         - rsum (map (fun u => b (var_at fs f u) (st (var_at fs f u))) (seq 0 (arity fs f)))) (seq 0 (length fs))))%R.
  Proof.
    destruct tables_belief as [r [Er Tr]]. exists r, bel. do 2 (split; [assumption|]). intros st cf [_ Hc].
    rewrite (score_beliefs fs pots evs m xs (all_vars_NoDup vgs Hok) edges_in st cf Hc). f_equal. apply rsum_ext. intros f Hf. apply in_seq in Hf.
    f_equal. symmetry. apply cb_score. lia.
  Qed.

  Context (B P : R) (D K : nat) (d : R).
  Hypothesis M : moderate fs pots ne evs B P D K.
  Hypothesis HT : (0 <= T)%R.
  Hypothesis Hd : (0 <= d < 1)%R.
  Hypothesis Hsup : supported lens.
  Hypothesis Hfl : above_floor lens (ba_ftov_msgs a).
  Hypothesis Hfix : ba_ftov_msgs (run_bp c a 1 d) = ba_ftov_msgs a.

  Lemma graph_fix : msg_eq fs (text_step fs pots T d evs m) m.
  Proof.
    apply fixed_step; [now apply graph_configs_ok|now apply positive_states|].
    pose proof (C39_lemma vgs g T c Hok Hr Hwf Hbp a Ha d 1 Hsup) as H. cbv zeta beta in H. rewrite Hfix in H. apply H.
    - intros i Hi. apply (above_floor_run vgs g T c Hok Hr Hwf Hbp a Ha B P D K M HT Hsup Hfl d ltac:(lra) 1 i Hi).
    - intros i Hi. apply (in_range_text g T Hwf a B P D K M).
  Qed.
  Lemma graph_cov : covered fs.
  Proof. apply (graph_covered (gr_groups g) Hwf). destruct M as [_ [_ [_ [_ [H _]]]]]. exact H. Qed.
  Lemma graph_cfg : configs_ok fs. Proof. now apply graph_configs_ok. Qed.

  Lemma C57_marginals_lemma : (0 < T)%R -> exists r b, get_beliefs c a = Ok r /\ belief_table vgs r b /\
    forall f u, f < length fs -> u < arity fs f -> (forall s, s < snd (var_at fs f u) -> (-1000 < m f u s)%R) ->
    forall s, s < snd (var_at fs f u) ->
      gibbs (fun s => b (var_at fs f u) s / T)%R (snd (var_at fs f u)) s = rsum (map (config_prob fs pots T b m f) (choices fs f u s)).
  Proof.
    intros HT'. destruct tables_belief as [r [Er Tr]]. exists r, bel. do 2 (split; [assumption|]).
    exact (fixed_prob fs pots T d evs m graph_cfg graph_cov Hd graph_fix HT').
  Qed.
  Lemma C57_max_lemma : T = 0%R -> exists r b, get_beliefs c a = Ok r /\ belief_table vgs r b /\
    forall f u, f < length fs -> u < arity fs f -> exists k : R, forall s, s < snd (var_at fs f u) ->
      (forall c, In c (choices fs f u s) -> (config_belief fs pots b m f c <= b (var_at fs f u) s + k)%R) /\
      ((-1000 < m f u s)%R -> exists c, In c (choices fs f u s) /\ config_belief fs pots b m f c = (b (var_at fs f u) s + k)%R).
  Proof.
    intros HT'. destruct tables_belief as [r [Er Tr]]. exists r, bel. do 2 (split; [assumption|]).
    exact (fixed_max fs pots T d evs m graph_cov Hd graph_fix HT').
  Qed.
  Lemma C57_optimal_lemma : T = 0%R -> (forall gr, In gr vgs -> one_state gr = false) -> (forall f, f < length fs -> 0 < arity fs f) ->
    exists r q b st, get_beliefs c a = Ok r /\ decode_map_states r = Ok q /\ belief_table vgs r b /\ state_table vgs q st /\
    ((forall x s, In x xs -> s < snd x -> s <> st x -> (b x s < b x (st x))%R) ->
     (forall f u, f < length fs -> u < arity fs f -> (-1000 < m f u (st (var_at fs f u)))%R) ->
     exists cf, joint fs xs st cf /\ forall S st' cf', loosely_coupled fs S -> joint fs xs st' cf' ->
       (forall x, In x xs -> S x = false -> st' x = st x) -> (joint_score fs pots evs xs st' cf' <= joint_score fs pots evs xs st cf)%R).
  Proof.
    intros HT' Hone Har. destruct (tables_state Hone) as [r [q [Er [Eq [Tr Tq]]]]]. exists r, q, bel, sta. do 4 (split; [assumption|]). intros Hlead Hmsg.
    apply (fixed_optimal fs pots T d evs m graph_cfg graph_cov Hd graph_fix xs (all_vars_NoDup vgs Hok) edges_in HT' Har sta); [|exact Hlead|exact Hmsg].
    intros x Hx. pose proof (argmax_first_best (bel x) (snd x) 0 (var_some x Hx)) as [H _]. exact H.
  Qed.
  Lemma C57_marginals_one_lemma : T = 1%R -> (forall gr, In gr vgs -> one_state gr = false) ->
    exists r q b, get_beliefs c a = Ok r /\ get_marginals r = Ok q /\ belief_table vgs r b /\
    forall gr y i f u, In gr vgs -> dget vg_eqb gr q = Some y -> f < length fs -> u < arity fs f ->
    nth_error (vg_variables gr) i = Some (var_at fs f u) -> (forall s, s < snd (var_at fs f u) -> (-1000 < m f u s)%R) ->
    forall s, s < snd (var_at fs f u) -> nth_error (row gr y i) s = Some (rsum (map (config_prob fs pots 1 b m f) (choices fs f u s))).
  Proof.
    intros HT' Hone. destruct tables_belief as [r [Er Tr]]. destruct (C35_lemma vgs g T c Hok Hr Hwf Hbp a Ha Hpos Hone) as [r' [q [Er' [Eq [_ Dq]]]]].
    rewrite Er in Er'. injection Er' as <-. exists r, q, bel. do 3 (split; [assumption|]). intros gr y i f u Hg Ey Hf Hu Hi Hm s Hs.
    destruct (Dq gr Hg) as [y' [Ey' [_ Rd]]]. rewrite Ey in Ey'. injection Ey' as <-. rewrite (Rd i _ Hi).
    rewrite nth_error_app1 by (rewrite map_length, seq_length; exact Hs).
    pose proof (fixed_prob fs pots T d evs m graph_cfg graph_cov Hd graph_fix ltac:(rewrite HT'; lra) f u Hf Hu Hm s Hs) as E. fold bel in E. rewrite HT' in E.
    rewrite <- E. erewrite map_nth_error by (rewrite (nth_error_nth' _ 0) by (rewrite seq_length; exact Hs); reflexivity). rewrite seq_nth by exact Hs. f_equal.
    change (gibbs (bel (var_at fs f u)) (snd (var_at fs f u)) s = gibbs (fun s0 => bel (var_at fs f u) s0 / 1)%R (snd (var_at fs f u)) s).
    unfold gibbs. f_equal; [f_equal; lra|]. f_equal. apply map_ext. intros t. f_equal. lra.
  Qed.
  Lemma C57_loop_map_lemma : T = 0%R -> (forall gr, In gr vgs -> one_state gr = false) -> (forall f, f < length fs -> 0 < arity fs f) -> degrees fs 2 2 ->
    exists r q b st, get_beliefs c a = Ok r /\ decode_map_states r = Ok q /\ belief_table vgs r b /\ state_table vgs q st /\
    ((forall x s, In x xs -> s < snd x -> s <> st x -> (b x s < b x (st x))%R) ->
     (forall f u, f < length fs -> u < arity fs f -> (-1000 < m f u (st (var_at fs f u)))%R) ->
     exists cf, joint fs xs st cf /\ forall st' cf', joint fs xs st' cf' -> (joint_score fs pots evs xs st' cf' <= joint_score fs pots evs xs st cf)%R).
  Proof.
    intros HT' Hone Har Hdeg. destruct (C57_optimal_lemma HT' Hone Har) as [r [q [b [st [H1 [H2 [H3 [H4 H5]]]]]]]]. exists r, q, b, st. do 4 (split; [assumption|]).
    intros Hl Hm. destruct (H5 Hl Hm) as [cf [J O]]. exists cf. split; [exact J|]. intros st' cf' J'. apply (O (fun _ => true)); [now apply degrees_loose|exact J'|discriminate].
  Qed.
  Lemma C57_floor_lemma w : all_configs fs -> pots_within fs pots w ->
    forall f u s, f < length fs -> u < arity fs f -> s < snd (var_at fs f u) -> (- w <= m f u s)%R.
  Proof.
    intros Hall Hp. exact (fixed_floor fs pots T d evs m w graph_cfg Hall (positive_states fs Hsup) HT Hd Hp graph_fix).
  Qed.
End Graph.
