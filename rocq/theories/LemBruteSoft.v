(** * Sums over the configurations of a logical factor (towards C27, C28). *)
From Verif Require Import NumPy Lists FGraph BP SpecFactor SpecWiring SpecState SpecBP LemNum LemNorm LemVtoF LemEnum LemLogCode LemBrute.
From Coq Require Import Reals Lra Lia.
Local Open Scope R_scope.

Definition rprod (l : list R) : R := fold_right Rmult 1 l.
Lemma rprod_nil : rprod [] = 1. Proof. reflexivity. Qed.
Lemma rprod_cons x l : rprod (x :: l) = x * rprod l. Proof. reflexivity. Qed.
Lemma rprod_ext {X} (f g : X -> R) l : (forall x, In x l -> f x = g x) -> rprod (map f l) = rprod (map g l).
Proof. intros H. f_equal. now apply map_ext_in. Qed.
Lemma rprod_mult {X} (f g : X -> R) l : rprod (map (fun x => f x * g x) l) = rprod (map f l) * rprod (map g l).
Proof. induction l as [|x l IH]; cbn [map]; rewrite ?rprod_nil, ?rprod_cons; [lra|]. rewrite IH. lra. Qed.
Lemma rprod_remove (f : nat -> R) l u : NoDup l -> In u l ->
  rprod (map f l) = f u * rprod (map f (filter (fun j => negb (j =? u)%nat) l)).
Proof.
  induction l as [|x l IH]; intros Hn Hi; [destruct Hi|]. inversion Hn as [|? ? Hx Hl]; subst. cbn [map filter].
  destruct Hi as [->|Hi].
  - rewrite Nat.eqb_refl. cbn [negb]. rewrite rprod_cons. f_equal. f_equal. f_equal. symmetry.
    clear -Hx. induction l as [|y l IH]; [reflexivity|]. cbn [filter].
    destruct (Nat.eqb_spec y u); [subst; exfalso; apply Hx; now left|]. cbn [negb]. f_equal. apply IH. intros F. apply Hx. now right.
  - destruct (Nat.eqb_spec x u); [subst; contradiction|]. cbn [negb map]. rewrite !rprod_cons, IH by assumption. lra.
Qed.
Lemma rprod_zero {X} (f : X -> R) l x : In x l -> f x = 0 -> rprod (map f l) = 0.
Proof.
  induction l as [|y l IH]; intros Hi E; [destruct Hi|]. cbn [map]. rewrite rprod_cons. destruct Hi as [->|Hi]; [rewrite E; lra|rewrite IH by assumption; lra].
Qed.
Lemma rprod_pos {X} (f : X -> R) l : (forall x, In x l -> 0 < f x) -> 0 < rprod (map f l).
Proof.
  induction l as [|y l IH]; intros H; cbn [map]; [rewrite rprod_nil; lra|]. rewrite rprod_cons. apply Rmult_lt_0_compat; [apply H; now left|].
  apply IH. intros x Hx. apply H. now right.
Qed.
Lemma rprod_gt1 {X} (f : X -> R) l : l <> [] -> (forall x, In x l -> 1 < f x) -> 1 < rprod (map f l).
Proof.
  induction l as [|y l IH]; intros Hn H; [contradiction|]. cbn [map]. rewrite rprod_cons.
  assert (1 < f y) by (apply H; now left). destruct l as [|z l]; [cbn [map]; rewrite rprod_nil; lra|].
  assert (1 < rprod (map f (z :: l))) by (apply IH; [discriminate|intros; apply H; now right]).
  apply Rlt_trans with (1 * rprod (map f (z :: l))); [lra|]. apply Rmult_lt_compat_r; lra.
Qed.
Lemma exp_rsum {X} (f : X -> R) T l : exp (rsum (map f l) / T) = rprod (map (fun x => exp (f x / T)) l).
Proof.
  induction l as [|x l IH]; cbn [map]; rewrite ?rsum_nil, ?rsum_cons, ?rprod_nil, ?rprod_cons.
  - unfold Rdiv. rewrite Rmult_0_l. apply exp_0.
  - rewrite <- IH, <- exp_plus. f_equal. unfold Rdiv. lra.
Qed.
Lemma ln_rprod {X} (f : X -> R) l : (forall x, In x l -> 0 < f x) -> ln (rprod (map f l)) = rsum (map (fun x => ln (f x)) l).
Proof.
  induction l as [|x l IH]; intros H; cbn [map]; rewrite ?rsum_nil, ?rsum_cons, ?rprod_nil, ?rprod_cons; [apply ln_1|].
  rewrite ln_mult; [|apply H; now left|apply rprod_pos; intros; apply H; now right]. rewrite IH by (intros; apply H; now right). reflexivity.
Qed.
Lemma rsum_filter_if {X} (g : X -> R) q l : rsum (map g (filter q l)) = rsum (map (fun x => if q x then g x else 0) l).
Proof. induction l as [|x l IH]; [reflexivity|]. cbn [filter map]. destruct (q x); cbn [map]; rewrite !rsum_cons, IH; lra. Qed.

(** The distributive law over all assignments. *)
Lemma sum_bools k (wt : nat -> nat -> R) :
  rsum (map (fun b => rprod (map (fun j => wt j (val b j)) (seq 0 k))) (bools k)) = rprod (map (fun j => wt j 0%nat + wt j 1%nat) (seq 0 k)).
Proof.
  revert wt. induction k as [|k IH]; intros wt.
  - cbn [bools seq map]. rewrite rsum_cons, rsum_nil, rprod_nil. lra.
  - cbn [bools seq map]. rewrite rprod_cons, <- seq_shift, !map_map. rewrite <- (IH (fun j => wt (S j))).
    rewrite <- rsum_scal. generalize (bools k). intros bs. induction bs as [|b bs IHb]; [reflexivity|].
    cbn [flat_map map app]. rewrite !rsum_cons, IHb. rewrite !rprod_cons. cbn [val nth]. rewrite !map_map.
    change (val (0%Z :: b) 0) with 0%nat. change (val (1%Z :: b) 0) with 1%nat.
    change (map (fun x => wt (S x) (val (0%Z :: b) (S x))) (seq 0 k)) with (map (fun x => wt (S x) (val b x)) (seq 0 k)).
    change (map (fun x => wt (S x) (val (1%Z :: b) (S x))) (seq 0 k)) with (map (fun x => wt (S x) (val b x)) (seq 0 k)).
    lra.
Qed.

Section Soft.
  Context (t : ftype) (Ht : t <> TEnum) (w : nat -> nat -> R) (k : nat) (T : R).
  Hypothesis HT : T <> 0.
  Let rs := relevant_state t.
  Let o := (1 - rs)%nat.
  Let all := seq 0 k.
  Let oth u := filter (fun j => negb (j =? u)%nat) all.
  Let E j s := exp (w j s / T).
  Let both j := E j o + E j rs.

  Lemma both_sum j : E j 0%nat + E j 1%nat = both j.
  Proof. unfold both, o, rs. destruct t; [contradiction| |]; cbn [relevant_state Nat.sub]; lra. Qed.
  Lemma sum_two (wt : nat -> R) : wt 0%nat + wt 1%nat = wt o + wt rs.
  Proof. unfold o, rs. destruct t; [contradiction| |]; cbn [relevant_state Nat.sub]; lra. Qed.
  Lemma eqb_o_rs : (rs =? o)%nat = false /\ (o =? rs)%nat = false.
  Proof. split; apply Nat.eqb_neq; unfold o, rs; destruct t; cbn; lia. Qed.

  Lemma exp_wsum b l : exp (wsum w b l / T) = rprod (map (fun j => E j (val b j)) l).
  Proof. unfold wsum. apply exp_rsum. Qed.

  (** The sum over the all-relevant assignment only. *)
  Lemma sum_none (g : list Z -> R) :
    (forall b, In b (bools k) -> (forall j, (j < k)%nat -> val b j = rs) -> g b = rprod (map (fun j => E j rs) all)) ->
    rsum (map (fun b => if (out t b =? o)%nat then 0 else g b) (bools k)) = rprod (map (fun j => E j rs) all).
  Proof.
    intros Hg.
    set (wt := fun j s => if (s =? rs)%nat then E j rs else 0). rewrite (rsum_ext _ (fun b => rprod (map (fun j => wt j (val b j)) (seq 0 k)))).
    - rewrite sum_bools. apply rprod_ext. intros j _. rewrite (sum_two (wt j)). unfold wt.
      rewrite Nat.eqb_refl, (proj2 eqb_o_rs). lra.
    - intros b Hb. destruct (out_cases t Ht k b Hb) as [[E1 [j [Hj Hv]]]|[E1 Hv]]; fold rs in E1, Hv; fold o in E1; try fold o in Hv; rewrite E1.
      + rewrite Nat.eqb_refl. symmetry. apply rprod_zero with j; [apply in_seq; lia|]. rewrite Hv. unfold wt. now rewrite (proj2 eqb_o_rs).
      + rewrite (proj1 eqb_o_rs). rewrite Hg by assumption. apply rprod_ext. intros j Hj. apply in_seq in Hj. rewrite Hv by lia. unfold wt. now rewrite Nat.eqb_refl.
  Qed.

  Lemma child_soft :
    rsum (map (fun x => exp (x / T)) (child_scores t w k o)) = rprod (map both all) - rprod (map (fun j => E j rs) all) /\
    rsum (map (fun x => exp (x / T)) (child_scores t w k rs)) = rprod (map (fun j => E j rs) all).
  Proof.
    unfold child_scores. rewrite !map_map, !rsum_filter_if. fold all.
    assert (S0 : rsum (map (fun b => if (out t b =? o)%nat then 0 else exp (wsum w b all / T)) (bools k)) = rprod (map (fun j => E j rs) all)).
    { apply sum_none. intros b Hb Hv. rewrite exp_wsum. apply rprod_ext. intros j Hj. apply in_seq in Hj. now rewrite Hv by lia. }
    assert (S1 : rsum (map (fun b => exp (wsum w b all / T)) (bools k)) = rprod (map both all)).
    { rewrite (rsum_ext _ (fun b => rprod (map (fun j => E j (val b j)) (seq 0 k)))) by (intros; apply exp_wsum).
      rewrite sum_bools. apply rprod_ext. intros j _. apply both_sum. }
    split.
    - rewrite <- S1, <- S0.
      rewrite (rsum_ext (fun b => exp (wsum w b all / T)) (fun b => (if (out t b =? o)%nat then exp (wsum w b all / T) else 0) + (if (out t b =? o)%nat then 0 else exp (wsum w b all / T)))).
      + rewrite rsum_plus. lra.
      + intros b _. destruct (_ =? _)%nat; lra.
    - rewrite <- S0. apply rsum_ext. intros b Hb. destruct (out_cases t Ht k b Hb) as [[E1 _]|[E1 _]]; fold rs in E1; try fold o in E1; rewrite E1.
      + now rewrite Nat.eqb_refl, (proj2 eqb_o_rs).
      + now rewrite Nat.eqb_refl, (proj1 eqb_o_rs).
  Qed.

  Lemma oth_lt u j : In j (oth u) -> (j < k /\ j <> u)%nat.
  Proof. unfold oth, all. intros H. apply filter_In in H. destruct H as [H1 H2]. apply in_seq in H1. destruct (Nat.eqb_spec j u); [discriminate|lia]. Qed.

  (** The sum over the other parents, with parent [u] fixed. *)
  Lemma sum_fixed u s : (u < k)%nat -> s = o \/ s = rs ->
    rsum (map (fun b => if (val b u =? s)%nat then rprod (map (fun j => E j (val b j)) (oth u)) else 0) (bools k)) = rprod (map both (oth u)).
  Proof.
    intros Hu Hs.
    set (wt := fun j s' => if (j =? u)%nat then (if (s' =? s)%nat then 1 else 0) else E j s').
    assert (Hwt : forall g, rprod (map (fun j => wt j (g j)) all) = (if (g u =? s)%nat then 1 else 0) * rprod (map (fun j => E j (g j)) (oth u))).
    { intros g. rewrite (rprod_remove _ all u); [|apply seq_NoDup|apply in_seq; lia]. unfold wt at 1. rewrite Nat.eqb_refl. f_equal.
      apply rprod_ext. intros j Hj. apply oth_lt in Hj. unfold wt. destruct (Nat.eqb_spec j u); [tauto|reflexivity]. }
    rewrite (rsum_ext _ (fun b => rprod (map (fun j => wt j (val b j)) (seq 0 k)))).
    - rewrite sum_bools. fold all. rewrite (rprod_remove _ all u); [|apply seq_NoDup|apply in_seq; lia].
      replace (wt u 0%nat + wt u 1%nat) with 1.
      2:{ rewrite (sum_two (wt u)). unfold wt. rewrite Nat.eqb_refl. destruct eqb_o_rs as [H1 H2]. destruct Hs as [->| ->]; rewrite Nat.eqb_refl, ?H1, ?H2; lra. }
      rewrite Rmult_1_l. apply rprod_ext. intros j Hj. apply oth_lt in Hj. unfold wt. destruct (Nat.eqb_spec j u); [tauto|apply both_sum].
    - intros b Hb. fold all. rewrite (Hwt (val b)). destruct (_ =? _)%nat; lra.
  Qed.

  Lemma parent_soft u : (u < k)%nat ->
    rsum (map (fun x => exp (x / T)) (parent_scores t w k u o)) = E k o * rprod (map both (oth u)) /\
    rsum (map (fun x => exp (x / T)) (parent_scores t w k u rs))
    = E k o * (rprod (map both (oth u)) - rprod (map (fun j => E j rs) (oth u))) + E k rs * rprod (map (fun j => E j rs) (oth u)).
  Proof.
    intros Hu. unfold parent_scores. rewrite !map_map, !rsum_filter_if. fold all. fold (oth u).
    assert (X : forall b, exp ((wsum w b (oth u) + w k (out t b)) / T) = E k (out t b) * rprod (map (fun j => E j (val b j)) (oth u))).
    { intros b. rewrite <- exp_wsum. unfold E. rewrite <- exp_plus. f_equal. unfold Rdiv. lra. }
    split.
    - rewrite <- (sum_fixed u o Hu (or_introl eq_refl)), <- rsum_scal. apply rsum_ext. intros b Hb.
      destruct (Nat.eqb_spec (val b u) o) as [Ev|Ev]; [|lra]. rewrite X. rewrite (out_o t Ht k b u Hb Hu Ev). reflexivity.
    - set (none := fun b => if (out t b =? o)%nat then 0 else rprod (map (fun j => E j (val b j)) (oth u))).
      assert (S0 : rsum (map none (bools k)) = rprod (map (fun j => E j rs) (oth u))).
      { set (wt := fun j s' => if (s' =? rs)%nat then (if (j =? u)%nat then 1 else E j rs) else 0).
        rewrite (rsum_ext _ (fun b => rprod (map (fun j => wt j (val b j)) (seq 0 k)))).
        - rewrite sum_bools. fold all. rewrite (rprod_remove _ all u); [|apply seq_NoDup|apply in_seq; lia].
          rewrite (sum_two (wt u)). unfold wt at 1 2. rewrite !Nat.eqb_refl, (proj2 eqb_o_rs), Rplus_0_l, Rmult_1_l. fold (oth u).
          apply rprod_ext. intros j Hj. apply oth_lt in Hj. rewrite (sum_two (wt j)). unfold wt. rewrite Nat.eqb_refl, (proj2 eqb_o_rs).
          destruct (Nat.eqb_spec j u); [tauto|lra].
        - intros b Hb. unfold none. fold all. destruct (out_cases t Ht k b Hb) as [[E1 [j [Hj Hv]]]|[E1 Hv]]; fold rs in E1, Hv; fold o in E1; try fold o in Hv; rewrite E1.
          + rewrite Nat.eqb_refl. symmetry. apply rprod_zero with j; [apply in_seq; lia|]. rewrite Hv. unfold wt. now rewrite (proj2 eqb_o_rs).
          + rewrite (proj1 eqb_o_rs). rewrite (rprod_remove _ all u); [|apply seq_NoDup|apply in_seq; lia]. fold (oth u).
            unfold wt at 1. rewrite Hv by exact Hu. rewrite !Nat.eqb_refl, Rmult_1_l. apply rprod_ext. intros j Hj. apply oth_lt in Hj.
            rewrite Hv by tauto. unfold wt. rewrite Nat.eqb_refl. destruct (Nat.eqb_spec j u); [tauto|reflexivity]. }
      rewrite <- S0, <- (sum_fixed u rs Hu (or_intror eq_refl)).
      rewrite Rmult_minus_distr_l. rewrite <- !rsum_scal.
      assert (R0 : forall (f g h i : list Z -> R) l, (forall b, In b l -> f b = g b - h b + i b) -> rsum (map f l) = rsum (map g l) - rsum (map h l) + rsum (map i l)).
      { intros f g h i l H. induction l as [|x l IH]; cbn [map]; rewrite ?rsum_nil, ?rsum_cons; [lra|]. rewrite (H x) by now left. rewrite IH by (intros; apply H; now right). lra. }
      apply R0. intros b Hb. unfold none. rewrite X.
      destruct (out_cases t Ht k b Hb) as [[E1 [j [Hj Hv]]]|[E1 Hv]]; fold rs in E1, Hv; fold o in E1; try fold o in Hv; rewrite E1.
      + rewrite Nat.eqb_refl. destruct (_ =? _)%nat; lra.
      + rewrite (proj1 eqb_o_rs), Hv by exact Hu. rewrite Nat.eqb_refl. lra.
  Qed.
End Soft.
