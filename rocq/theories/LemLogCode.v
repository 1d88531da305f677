(** * What the code for logical factors computes, in terms of functions of factor and
    parent (towards C26-C28). *)
From Verif Require Import NumPy Lists FGraph BP SpecWiring SpecState SpecBP LemNum LemNorm LemVtoF LemEnum.
From Coq Require Import Reals Lra Lia.
Local Open Scope nat_scope.

Lemma filter_unique {X} (q : X -> bool) l x : NoDup l -> In x l -> q x = true ->
  (forall y, In y l -> q y = true -> y = x) -> filter q l = [x].
Proof.
  induction l as [|y l IH]; intros Hn Hi Hq Hu; [destruct Hi|]. inversion Hn as [|? ? Hy Hl]; subst. cbn [filter].
  destruct Hi as [->|Hi].
  - rewrite Hq. f_equal. apply filter_none. intros z Hz. destruct (q z) eqn:E; [|reflexivity].
    exfalso. apply Hy. rewrite <- (Hu z); [exact Hz|now right|exact E].
  - destruct (q y) eqn:E.
    + exfalso. apply Hy. rewrite (Hu y); [exact Hi|now left|exact E].
    + apply IH; auto. intros z Hz. apply Hu. now right.
Qed.
Lemma repeat_as_map {X} (x : X) n : repeat x n = map (fun _ => x) (seq 0 n).
Proof. generalize 0. induction n as [|n IH]; intros a; [reflexivity|]. cbn [repeat seq map]. f_equal. apply IH. Qed.
Lemma NoDup_positions lens : NoDup (positions lens).
Proof.
  apply (NoDup_map_inv (fun p => off lens (fst p) + snd p)).
  replace (map (fun p => off lens (fst p) + snd p) (positions lens)) with (seq 0 (list_sum lens)); [apply seq_NoDup|].
  apply (nth_ext _ _ 0 0); [rewrite map_length, positions_length, seq_length; reflexivity|].
  intros k Hk. rewrite seq_length in Hk. rewrite seq_nth by exact Hk.
  destruct (off_split lens k Hk) as [f [u [Hf [Hu ->]]]].
  rewrite (nth_map _ _ _ _ (0, 0)) by (rewrite positions_length; exact Hk). now rewrite nth_positions.
Qed.
Lemma seq_positions lens : seq 0 (length (positions lens)) = map (fun p => off lens (fst p) + snd p) (positions lens).
Proof.
  apply (nth_ext _ _ 0 0); [now rewrite map_length, seq_length|].
  intros k Hk. rewrite seq_length, positions_length in Hk. rewrite seq_nth by now rewrite positions_length.
  destruct (off_split lens k Hk) as [f [u [Hf [Hu ->]]]].
  rewrite (nth_map _ _ _ _ (0, 0)) by (rewrite positions_length; exact Hk). now rewrite nth_positions.
Qed.

Section Code.
  Context (ks : list nat).
  Let nf := length ks.
  Let pp := positions ks.
  Let k f := nth f ks 0.
  Definition lab (p : nat * nat) : Z := Z.of_nat (fst p).
  Definition pidx (f u : nat) : Z := Z.of_nat (off ks f + u).

  Lemma In_pp p : In p pp <-> fst p < nf /\ snd p < k (fst p).
  Proof. apply In_positions. Qed.
  Lemma pp_length : length pp = list_sum ks. Proof. apply positions_length. Qed.
  Lemma nth_map_pp {X} (D : nat * nat -> X) f u d : f < nf -> u < k f -> nth (off ks f + u) (map D pp) d = D (f, u).
  Proof.
    intros Hf Hu. rewrite (nth_map _ _ _ _ (0, 0)) by (rewrite pp_length; now apply off_block_lt).
    unfold pp. now rewrite nth_positions.
  Qed.
  Lemma map_pp_eq {X} (D : nat * nat -> X) l : length l = length pp ->
    (forall f u d, f < nf -> u < k f -> nth (off ks f + u) l d = D (f, u)) -> l = map D pp.
  Proof.
    intros Hl H. destruct pp as [|p0 pp0] eqn:E; [destruct l; [reflexivity|discriminate]|]. rewrite <- E in *.
    apply (nth_ext _ _ (D p0) (D p0)); [now rewrite map_length|].
    intros i Hi. rewrite Hl, pp_length in Hi. destruct (off_split ks i Hi) as [f [u [Hf [Hu ->]]]].
    rewrite H by assumption. now rewrite nth_map_pp.
  Qed.
  Lemma map_seq_eq {X} (D : nat -> X) n l : length l = n -> (forall f d, f < n -> nth f l d = D f) -> l = map D (seq 0 n).
  Proof.
    intros Hl H. apply (nth_ext _ _ (D 0) (D 0)); [now rewrite map_length, seq_length|].
    intros i Hi. rewrite H by lia. rewrite nth_map_seq by lia. reflexivity.
  Qed.

  Lemma gather_fac {X} (d : X) (V : nat -> X) : gather d (map V (seq 0 nf)) (map lab pp) = map (fun p => V (fst p)) pp.
  Proof.
    unfold gather. rewrite map_map. apply map_ext_in. intros p Hp. apply In_pp in Hp. unfold lab.
    rewrite gather1_in by (rewrite map_length, seq_length; lia). rewrite Nat2Z.id. now rewrite nth_map_seq by tauto.
  Qed.
  Lemma gather_par {X} (d : X) (D : nat * nat -> X) a : (forall f, f < nf -> a f < k f) ->
    gather d (map D pp) (map (fun f => pidx f (a f)) (seq 0 nf)) = map (fun f => D (f, a f)) (seq 0 nf).
  Proof.
    intros Ha. unfold gather. rewrite map_map. apply map_ext_in. intros f Hf. apply in_seq in Hf. unfold pidx.
    assert (L : off ks f + a f < list_sum ks) by (apply off_block_lt; [lia|apply Ha; lia]).
    rewrite gather1_in by (rewrite map_length, pp_length; lia). rewrite Nat2Z.id. apply nth_map_pp; [lia|apply Ha; lia].
  Qed.
  Lemma lab_filter f : f < nf -> filter (fun p => (lab p =? Z.of_nat f)%Z) pp = map (pair f) (seq 0 (k f)).
  Proof.
    intros Hf. unfold pp, positions. rewrite filter_flat_map. rewrite (flat_map_only _ _ f Hf).
    - rewrite filter_map. fold (k f). f_equal. rewrite (filter_ext _ (fun _ => true)); [|intros; apply Z.eqb_refl].
      clear. induction (seq 0 (k f)) as [|x l IH]; cbn; congruence.
    - intros j Hj Hne. apply filter_none. intros p Hp. apply in_map_iff in Hp. destruct Hp as [u [<- _]].
      apply Z.eqb_neq. unfold lab. cbn [fst]. lia.
  Qed.
  Lemma scatter_fac {X V} (g : X -> V -> X) (I : nat -> X) (D : nat * nat -> V) :
    scatter g (map I (seq 0 nf)) (map lab pp) (map D pp)
    = map (fun f => fold_left g (map (fun u => D (f, u)) (seq 0 (k f))) (I f)) (seq 0 nf).
  Proof.
    apply map_seq_eq; [rewrite scatter_length, map_length, seq_length; reflexivity|].
    intros f d Hf. rewrite nth_scatter_map; [|intros; unfold lab; lia|now rewrite map_length, seq_length].
    rewrite nth_map_seq by exact Hf. rewrite lab_filter by exact Hf. rewrite map_map. reflexivity.
  Qed.
  Lemma pidx_inj f u f' u' : f < nf -> u < k f -> f' < nf -> u' < k f' -> pidx f u = pidx f' u' -> f = f' /\ u = u'.
  Proof. intros. apply (off_inj ks); auto. unfold pidx in *. lia. Qed.
  Lemma set_par {X} (D : nat * nat -> X) a (V : nat -> X) : (forall f, f < nf -> a f < k f) ->
    scatter_set (map D pp) (map (fun f => pidx f (a f)) (seq 0 nf)) (map V (seq 0 nf))
    = map (fun p => if snd p =? a (fst p) then V (fst p) else D p) pp.
  Proof.
    intros Ha. apply map_pp_eq; [unfold scatter_set; rewrite scatter_length; apply map_length|].
    intros f u d Hf Hu. unfold scatter_set.
    assert (L : off ks f + u < list_sum ks) by now apply off_block_lt.
    rewrite nth_scatter_map; [|intros; unfold pidx; lia|rewrite map_length, pp_length; exact L].
    rewrite nth_map_pp by assumption. cbn [fst snd]. fold (pidx f u).
    destruct (Nat.eqb_spec u (a f)) as [E|E].
    - rewrite (filter_unique _ _ f); [reflexivity|apply seq_NoDup|apply in_seq; lia|apply Z.eqb_eq; now rewrite E|].
      intros g Hg Hq. apply in_seq in Hg. apply Z.eqb_eq in Hq. apply pidx_inj in Hq; [tauto|lia|apply Ha; lia|exact Hf|exact Hu].
    - rewrite filter_none; [reflexivity|]. intros g Hg. apply in_seq in Hg. apply Z.eqb_neq. intros Hq.
      apply pidx_inj in Hq; [|lia|apply Ha; lia|exact Hf|exact Hu]. destruct Hq as [-> E2]. congruence.
  Qed.
  Lemma bincount_labels : bincount (map lab pp) nf = ks.
  Proof.
    unfold bincount. symmetry. apply map_seq_eq; [reflexivity|]. intros f d Hf. rewrite filter_map, map_length, lab_filter by exact Hf.
    rewrite map_length, seq_length. unfold k. now apply nth_indep.
  Qed.
  Lemma first_elements : map Z.of_nat (starts ks) = map (fun f => pidx f 0) (seq 0 nf).
  Proof. rewrite starts_off, map_map. apply map_ext. intros f. unfold pidx. now rewrite Nat.add_0_r. Qed.

  (** ** Maxima and their positions *)
  Lemma fold_Zmax_spec {X} (g : X -> Z) l a :
    (a <= fold_left Z.max (map g l) a)%Z /\ (forall x, In x l -> (g x <= fold_left Z.max (map g l) a)%Z) /\
    (fold_left Z.max (map g l) a = a \/ exists x, In x l /\ fold_left Z.max (map g l) a = g x).
  Proof.
    revert a. induction l as [|x l IH]; intros a; cbn [map fold_left].
    - repeat split; [lia|intros ? []|now left].
    - destruct (IH (Z.max a (g x))) as [H1 [H2 H3]]. repeat split; [lia| |].
      + intros y [->|Hy]; [lia|now apply H2].
      + destruct H3 as [H3|[y [Hy H3]]].
        * destruct (Z.max_spec a (g x)) as [[_ E]|[_ E]]; rewrite E in H3 at 2; [right; exists x; split; [now left|exact H3]|left; exact H3].
        * right. exists y. split; [now right|exact H3].
  Qed.

  Lemma argmax_exists (D : nat * nat -> R) f : f < nf -> (exists u, u < k f /\ (neg_inf <= D (f, u))%R) ->
    let mx g := rmax neg_inf (map (fun u => D (g, u)) (seq 0 (k g))) in
    let pos := fun p => (Z.of_nat (off ks (fst p) + snd p) - Z.of_nat (length pp) * (if negb (neqb (D p) (mx (fst p))) then 1 else 0))%Z in
    exists u, u < k f /\ D (f, u) = mx f /\ fold_left Z.max (map (fun u => pos (f, u)) (seq 0 (k f))) (-100000)%Z = pidx f u.
  Proof.
    intros Hf [u0 [Hu0 Hge]] mx pos.
    assert (Hat : exists u, u < k f /\ D (f, u) = mx f).
    { unfold mx. destruct (rmax_attained neg_inf (map (fun u => D (f, u)) (seq 0 (k f)))) as [E|E].
      - exists u0. split; [exact Hu0|]. apply Rle_antisym; [|now rewrite E]. apply rmax_ub.
        apply in_map_iff. exists u0. split; [reflexivity|apply in_seq; lia].
      - apply in_map_iff in E. destruct E as [u [E Hu]]. apply in_seq in Hu. exists u. split; [lia|exact E]. }
    destruct Hat as [u1 [Hu1 E1]].
    assert (P1 : pos (f, u1) = pidx f u1).
    { unfold pos. cbn [fst snd]. rewrite E1, (proj2 (neqb_R (mx f) (mx f)) eq_refl). unfold pidx. cbn [negb]. lia. }
    destruct (fold_Zmax_spec (fun u => pos (f, u)) (seq 0 (k f)) (-100000)%Z) as [H1 [H2 H3]].
    assert (Hin : In u1 (seq 0 (k f))) by (apply in_seq; lia). specialize (H2 u1 Hin). cbn beta in H2. rewrite P1 in H2.
    destruct H3 as [H3|[u [Hu H3]]]; [unfold pidx in H2; lia|]. apply in_seq in Hu. exists u. split; [lia|].
    rewrite H3 in H2. destruct (neqb (D (f, u)) (mx f)) eqn:En.
    - split; [now apply neqb_R|]. rewrite H3. unfold pos. cbn [fst snd]. rewrite En. unfold pidx. cbn [negb]. lia.
    - exfalso. unfold pos in H2. cbn [fst snd] in H2. rewrite En in H2. cbn [negb] in H2. unfold pidx in H2.
      pose proof (off_block_lt ks f u Hf (proj2 Hu)) as L. rewrite <- pp_length in L. lia.
  Qed.
  Lemma choice_fun (Q : nat -> nat -> Prop) n : (forall f, f < n -> exists u, Q f u) -> exists a, forall f, f < n -> Q f (a f).
  Proof.
    induction n as [|n IH]; intros H; [exists (fun _ => 0); intros; lia|].
    destruct IH as [a Ha]; [intros f Hf; apply H; lia|]. destruct (H n) as [u Hu]; [lia|].
    exists (fun f => if f =? n then u else a f). intros f Hf. destruct (Nat.eqb_spec f n); [now subst|apply Ha; lia].
  Qed.
  Lemma argmaxes_spec (D : nat * nat -> R) : (forall f, f < nf -> exists u, u < k f /\ (neg_inf <= D (f, u))%R) ->
    exists a, (forall f, f < nf -> a f < k f /\ D (f, a f) = rmax neg_inf (map (fun u => D (f, u)) (seq 0 (k f)))) /\
      snd (get_maxes_and_argmaxes (map D pp) (map lab pp) nf) = map (fun f => pidx f (a f)) (seq 0 nf).
  Proof.
    intros H. set (mx g := rmax neg_inf (map (fun u => D (g, u)) (seq 0 (k g)))).
    set (pos := fun p => (Z.of_nat (off ks (fst p) + snd p) - Z.of_nat (length pp) * (if negb (neqb (D p) (mx (fst p))) then 1 else 0))%Z).
    destruct (choice_fun (fun f u => u < k f /\ D (f, u) = mx f /\ fold_left Z.max (map (fun u => pos (f, u)) (seq 0 (k f))) (-100000)%Z = pidx f u) nf) as [a Ha].
    { intros f Hf. apply argmax_exists; [exact Hf|now apply H]. }
    exists a. split; [intros f Hf; destruct (Ha f Hf) as [H1 [H2 _]]; auto|].
    unfold get_maxes_and_argmaxes. cbn [snd]. rewrite map_length.
    assert (E1 : scatter nmax (repeat NEG_INF nf) (map lab pp) (map D pp) = map mx (seq 0 nf)).
    { rewrite repeat_as_map, scatter_fac. apply map_ext. intros f. unfold mx. rewrite <- fold_left_Rmax. apply fold_left_ext. apply nmax_R. }
    rewrite E1, gather_fac, map2_map.
    replace (seq 0 (length pp)) with (map (fun p => off ks (fst p) + snd p) pp) by (symmetry; apply seq_positions).
    rewrite map2_map.
    change (fun x => (Z.of_nat (off ks (fst x) + snd x) - Z.of_nat (length pp) * (if negb (neqb (D x) (mx (fst x))) then 1 else 0))%Z) with pos.
    rewrite repeat_as_map, scatter_fac. apply map_ext_in. intros f Hf. apply in_seq in Hf. apply Ha. lia.
  Qed.

  (** ** The max-product formulas *)
  Context (P : nat * nat -> R) (C : nat -> R).
  Definition others f u : list nat := filter (fun j => negb (j =? u)) (seq 0 (k f)).
  Local Open Scope R_scope.
  Definition pos_sum f (l : list nat) : R := rsum (map (fun u => Rmax 0 (P (f, u))) l).
  Definition par_max f (l : list nat) : R := rmaxs (map (fun u => P (f, u)) l).

  Lemma In_others f u j : In j (others f u) <-> (j < k f /\ j <> u)%nat.
  Proof.
    unfold others. rewrite filter_In, in_seq. destruct (Nat.eqb_spec j u); cbn [negb].
    - split; [intros [_ H]; discriminate|intros [_ H]; contradiction].
    - split; [intros [H _]; split; [lia|assumption]|intros [H _]; split; [lia|reflexivity]].
  Qed.

  Lemma logical_max_code :
    (forall f, (f < nf)%nat -> (0 < k f)%nat) ->
    (forall f u, (f < nf)%nat -> (u < k f)%nat -> neg_inf < P (f, u)) ->
    exists PM,
      logical_max_product (map P pp) (map C (seq 0 nf)) (map lab pp) nf
      = (map PM pp, map (fun f => pos_sum f (seq 0 (k f)) + Rmin 0 (par_max f (seq 0 (k f)))) (seq 0 nf)) /\
      forall f u, (f < nf)%nat -> (u < k f)%nat -> (2 <= k f)%nat ->
        PM (f, u) = Rmin (C f + pos_sum f (others f u)) (Rmax 0 (- par_max f (others f u))).
  Proof.
    intros Hk HP.
    destruct (argmaxes_spec P) as [a [Ha Ea]].
    { intros f Hf. exists 0%nat. split; [now apply Hk|]. left. apply HP; auto. }
    assert (Ha' : forall f, (f < nf)%nat -> (a f < k f)%nat) by (intros f Hf; now apply Ha).
    set (D2 := fun p : nat * nat => if (snd p =? a (fst p))%nat then neg_inf else P p).
    destruct (argmaxes_spec D2) as [b [Hb Eb]].
    { intros f Hf. exists (a f). split; [now apply Ha'|]. unfold D2. cbn [fst snd]. rewrite Nat.eqb_refl. apply Rle_refl. }
    assert (Hb' : forall f, (f < nf)%nat -> (b f < k f)%nat) by (intros f Hf; now apply Hb).
    unfold logical_max_product. rewrite Ea.
    assert (E2 : scatter_set (map P pp) (map (fun f => pidx f (a f)) (seq 0 nf)) (repeat NEG_INF (length (map (fun f => pidx f (a f)) (seq 0 nf)))) = map D2 pp).
    { rewrite map_length, seq_length, repeat_as_map, set_par by exact Ha'. reflexivity. }
    rewrite E2, Eb. rewrite !gather_par by assumption.
    assert (E3 : map (nmax n0) (map P pp) = map (fun p => Rmax 0 (P p)) pp) by (rewrite map_map; apply map_ext; intros; apply nmax_R).
    rewrite E3.
    assert (E4 : scatter nadd (repeat n0 nf) (map lab pp) (map (fun p => Rmax 0 (P p)) pp) = map (fun f => pos_sum f (seq 0 (k f))) (seq 0 nf)).
    { rewrite repeat_as_map, scatter_fac. apply map_ext. intros f. rewrite (fold_left_ext nadd Rplus) by (intros; apply nadd_R).
      rewrite fold_left_Rplus. unfold pos_sum. change (@n0 R RNum) with 0. lra. }
    rewrite E4, !gather_fac. rewrite !gather_par by assumption. unfold vadd, vsub. rewrite !map_map, !map2_map, set_par by exact Ha'.
    eexists. split; [f_equal|].
    - apply map_ext_in. intros f Hf. apply in_seq in Hf. rewrite nadd_R, nmin_R. f_equal. f_equal.
      destruct (Ha f) as [H1 H2]; [lia|]. rewrite H2. unfold par_max.
      rewrite rmax_rmaxs by (intros E; apply (f_equal (@length R)) in E; rewrite map_length, seq_length in E; cbn in E; lia).
      apply Rmax_right. left. apply Rlt_le_trans with (P (f, a f)); [apply HP; lia|]. apply rmaxs_ub.
      apply in_map_iff. exists (a f). split; [reflexivity|apply in_seq; lia].
    - intros f u Hf Hu H2. cbn [fst snd]. destruct (Ha f Hf) as [Haf Eaf].
      assert (S1 : pos_sum f (seq 0 (k f)) = Rmax 0 (P (f, u)) + pos_sum f (others f u)).
      { unfold pos_sum, others. apply (rsum_remove (fun u => Rmax 0 (P (f, u)))); [apply seq_NoDup|apply in_seq; lia]. }
      assert (Hub : forall j, (j < k f)%nat -> P (f, j) <= P (f, a f)).
      { intros j Hj. rewrite Eaf. apply rmax_ub. apply in_map_iff. exists j. split; [reflexivity|apply in_seq; lia]. }
      destruct (Nat.eqb_spec u (a f)) as [->|Hne].
      + rewrite !nmin_R, nadd_R, nsub_R, S1. f_equal; [lra|]. rewrite nmax_R, nopp_R. change (@n0 R RNum) with 0. f_equal. f_equal.
        destruct (Hb f Hf) as [Hbf Ebf].
        assert (Hoth : exists j, In j (others f (a f))).
        { destruct (Nat.eq_dec (a f) 0) as [E|E]; [exists 1%nat|exists 0%nat]; apply In_others; lia. }
        destruct Hoth as [j Hj]. pose proof (proj1 (In_others _ _ _) Hj) as [Hj1 Hj2].
        assert (Hbub : forall i, (i < k f)%nat -> D2 (f, i) <= D2 (f, b f)).
        { intros i Hi. rewrite Ebf. apply rmax_ub. apply in_map_iff. exists i. split; [reflexivity|apply in_seq; lia]. }
        assert (HD : forall i, i <> a f -> D2 (f, i) = P (f, i)).
        { intros i Hi. unfold D2. cbn [fst snd]. destruct (Nat.eqb_spec i (a f)); [contradiction|reflexivity]. }
        assert (Hba : b f <> a f).
        { intros E. specialize (Hbub j Hj1). rewrite HD in Hbub by exact Hj2. rewrite E in Hbub. unfold D2 in Hbub. cbn [fst snd] in Hbub.
          rewrite Nat.eqb_refl in Hbub. specialize (HP f j Hf Hj1). lra. }
        symmetry. unfold par_max. apply rmaxs_eq.
        * apply in_map_iff. exists (b f). split; [reflexivity|]. apply In_others. auto.
        * intros x Hx. apply in_map_iff in Hx. destruct Hx as [i [<- Hi]]. apply In_others in Hi. destruct Hi as [Hi1 Hi2].
          specialize (Hbub i Hi1). now rewrite !HD in Hbub.
      + rewrite !nmin_R, nadd_R, nsub_R, S1. f_equal; [lra|]. rewrite nmax_R, nopp_R. change (@n0 R RNum) with 0. f_equal. f_equal.
        symmetry. unfold par_max. apply rmaxs_eq.
        * apply in_map_iff. exists (a f). split; [reflexivity|]. apply In_others. auto.
        * intros x Hx. apply in_map_iff in Hx. destruct Hx as [i [<- Hi]]. apply In_others in Hi. apply Hub. tauto.
  Qed.

  (** ** The formulas at temperature T *)
  Definition lsm (T p : R) : R := T * ln (1 + exp (p / T)).
  Definition ls_sum T f (l : list nat) : R := rsum (map (fun u => lsm T (P (f, u))) l).
  Definition par_soft (T G c : R) : R :=
    let g := g_fun T G in
    - T * ln (sigmoid (g / T) + sigmoid (- g / T) * exp (- c / T)).
  Lemma logical_sum_code T : T <> 0 ->
    logical_sum_product T (map P pp) (map C (seq 0 nf)) (map lab pp) nf
    = (map (fun p => par_soft T (ls_sum T (fst p) (others (fst p) (snd p))) (C (fst p))) pp,
       map (fun f => g_fun T (ls_sum T f (seq 0 (k f)))) (seq 0 nf)).
  Proof.
    intros HT. unfold logical_sum_product.
    assert (E1 : map (fun p => nmul (nopp T) (log_sigmoid (ndiv (nopp p) T))) (map P pp) = map (fun p => lsm T (P p)) pp).
    { rewrite map_map. apply map_ext. intros p. unfold log_sigmoid, lsm. rewrite nmul_R, !nopp_R, nadd_R. change (@n1 R RNum) with 1.
      change (@ndiv R RNum) with Rdiv. change (@nexp R RNum) with exp. change (@nln R RNum) with ln.
      replace (- (- P p / T)) with (P p / T) by (field; exact HT). lra. }
    rewrite E1.
    assert (E2 : scatter nadd (repeat n0 nf) (map lab pp) (map (fun p => lsm T (P p)) pp) = map (fun f => ls_sum T f (seq 0 (k f))) (seq 0 nf)).
    { rewrite repeat_as_map, scatter_fac. apply map_ext. intros f. rewrite (fold_left_ext nadd Rplus) by (intros; apply nadd_R).
      rewrite fold_left_Rplus. unfold ls_sum. change (@n0 R RNum) with 0. lra. }
    rewrite E2, !gather_fac. unfold vsub. rewrite !map2_map, !map_map, map2_map. f_equal.
    apply map_ext_in. intros p Hp. apply In_pp in Hp. unfold par_soft.
    replace (nsub (ls_sum T (fst p) (seq 0 (k (fst p)))) (lsm T (P p))) with (ls_sum T (fst p) (others (fst p) (snd p))).
    2:{ rewrite nsub_R. unfold ls_sum, others. rewrite (rsum_remove (fun u => lsm T (P (fst p, u))) (seq 0 (k (fst p))) (snd p)); [|apply seq_NoDup|apply in_seq; lia].
        rewrite <- surjective_pairing. lra. }
    rewrite !nopp_R. reflexivity.
  Qed.
End Code.
