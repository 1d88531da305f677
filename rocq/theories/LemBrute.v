(** * Enumerating the configurations of a logical factor (towards C26-C28). *)
From Verif Require Import NumPy Lists FGraph BP SpecFactor SpecWiring SpecState SpecBP LemNum LemNorm LemVtoF LemEnum LemLogCode.
From Coq Require Import Reals Lra Lia.
Local Open Scope nat_scope.

Lemma map_nth_filter {X Y} (h : X -> Y) (q : X -> bool) L d :
  map (fun c => h (nth c L d)) (filter (fun c => q (nth c L d)) (seq 0 (length L))) = map h (filter q L).
Proof.
  induction L as [|x L IH]; [reflexivity|]. cbn [length seq filter nth]. rewrite <- seq_shift, filter_map. cbn [nth].
  destruct (q x); cbn [map nth]; rewrite map_map; cbn [nth]; now rewrite IH.
Qed.

(** ** Assignments *)
Definition val (b : list Z) (j : nat) : nat := Z.to_nat (nth j b 0%Z).
Lemma In_bools k b : In b (bools k) <-> length b = k /\ forall x, In x b -> x = 0%Z \/ x = 1%Z.
Proof.
  revert b. induction k as [|k IH]; intros b; cbn [bools].
  - split; [intros [<-|[]]; split; [reflexivity|intros ? []]|]. intros [H _]. destruct b; [now left|discriminate].
  - rewrite in_flat_map. split.
    + intros [b' [Hb Hx]]. apply IH in Hb. destruct Hb as [Hl Hb]. destruct Hx as [<-|[<-|[]]]; (split; [cbn; lia|]); intros x [<-|Hx]; auto.
    + intros [Hl Hb]. destruct b as [|x b]; [discriminate|]. exists b. split; [apply IH; split; [now injection Hl|intros y Hy; apply Hb; now right]|].
      destruct (Hb x (or_introl eq_refl)) as [->| ->]; [now left|right; now left].
Qed.
Lemma val_lt k b j : In b (bools k) -> val b j < 2.
Proof.
  intros Hb. apply In_bools in Hb. destruct Hb as [_ Hb]. unfold val. destruct (Nat.lt_ge_cases j (length b)) as [H|H].
  - destruct (Hb _ (nth_In _ 0%Z H)) as [->| ->]; cbn; lia.
  - rewrite nth_overflow by exact H. cbn. lia.
Qed.

Section Assign.
  Context (t : ftype) (Ht : t <> TEnum).
  Let rs := relevant_state t.
  Let o := 1 - rs.
  Lemma two_states s : s < 2 -> s = o \/ s = rs.
  Proof. unfold o, rs. destruct t; cbn; lia. Qed.
  Lemma o_ne_rs : o <> rs. Proof. unfold o, rs. destruct t; cbn; lia. Qed.
  Lemma o_lt : o < 2. Proof. unfold o, rs. destruct t; cbn; lia. Qed.
  Lemma rs_lt : rs < 2. Proof. unfold o, rs. destruct t; cbn; lia. Qed.

  (** The connective: the other state as soon as one argument has it. *)
  Lemma connective_spec k b : In b (bools k) ->
    Z.to_nat (connective t b) = if existsb (fun j => val b j =? o) (seq 0 k) then o else rs.
  Proof.
    intros Hb. apply In_bools in Hb. destruct Hb as [Hl Hb]. subst k.
    assert (E : forall z, existsb (Z.eqb z) b = existsb (fun j => (z =? nth j b 0)%Z) (seq 0 (length b))).
    { intros z. clear. induction b as [|x b IH]; [reflexivity|]. cbn [length seq existsb nth]. f_equal. rewrite IH, <- seq_shift.
      generalize (seq 0 (length b)). intros l. induction l as [|y l IHl]; [reflexivity|]. cbn [map existsb nth]. now rewrite IHl. }
    assert (X : forall z, (z = 0 \/ z = 1)%Z -> existsb (fun j => val b j =? Z.to_nat z) (seq 0 (length b)) = existsb (Z.eqb z) b).
    { intros z Hz. rewrite E. apply eq_true_iff_eq. rewrite !existsb_exists. split; intros [j [Hj Hq]]; exists j; (split; [exact Hj|]);
        apply in_seq in Hj; assert (Hx : In (nth j b 0%Z) b) by (apply nth_In; lia); destruct (Hb _ Hx) as [E0|E0]; unfold val in Hq |- *; rewrite E0 in Hq |- *;
        destruct Hz; subst z; vm_compute in Hq; try discriminate Hq; reflexivity. }
    unfold o, rs. destruct t; [contradiction| |]; cbn [relevant_state connective Nat.sub].
    - change 1%nat with (Z.to_nat 1) at 1. rewrite (X 1%Z) by auto. now destruct (existsb (Z.eqb 1) b).
    - change 0%nat with (Z.to_nat 0) at 1. rewrite (X 0%Z) by auto. assert (E2 : forallb (Z.eqb 1) b = negb (existsb (Z.eqb 0) b)).
      { clear - Hb. induction b as [|x b IH]; [reflexivity|]. cbn [forallb existsb]. rewrite IH by (intros; apply Hb; now right).
        destruct (Hb x (or_introl eq_refl)) as [->| ->]; reflexivity. }
      rewrite E2. now destruct (existsb (Z.eqb 0) b).
  Qed.

  (** The assignment giving the other state to the arguments in [q]. *)
  Definition mkb (k : nat) (q : nat -> bool) : list Z := map (fun j => Z.of_nat (if q j then o else rs)) (seq 0 k).
  Lemma mkb_In k q : In (mkb k q) (bools k).
  Proof.
    apply In_bools. split; [unfold mkb; now rewrite map_length, seq_length|]. intros x Hx. apply in_map_iff in Hx. destruct Hx as [j [<- _]].
    pose proof o_lt. pose proof rs_lt. destruct (q j); lia.
  Qed.
  Lemma val_mkb k q j : j < k -> val (mkb k q) j = if q j then o else rs.
  Proof. intros Hj. unfold val, mkb. rewrite nth_map_seq by exact Hj. apply Nat2Z.id. Qed.

  Local Open Scope R_scope.
  Context (w : nat -> nat -> R).
  Let p j := w j o - w j rs.
  Definition wsum (b : list Z) (l : list nat) : R := rsum (map (fun j => w j (val b j)) l).
  Definition base (l : list nat) : R := rsum (map (fun j => w j rs) l).
  Definition gains (b : list Z) (l : list nat) : R := rsum (map (fun j => if (val b j =? o)%nat then p j else 0) l).
  Definition psum (l : list nat) : R := rsum (map (fun j => Rmax 0 (p j)) l).
  Definition pmax (l : list nat) : R := rmaxs (map p l).

  Lemma wsum_gains k b l : In b (bools k) -> wsum b l = base l + gains b l.
  Proof.
    intros Hb. unfold wsum, base, gains. rewrite <- rsum_plus. apply rsum_ext. intros j _.
    pose proof (val_lt k b j Hb) as Hv. destruct (two_states _ Hv) as [E|E]; rewrite E.
    - rewrite Nat.eqb_refl. unfold p. lra.
    - destruct (Nat.eqb_spec rs o) as [E'|E']; [exfalso; apply o_ne_rs; auto|lra].
  Qed.
  Lemma gains_le b l : gains b l <= psum l.
  Proof.
    unfold gains, psum. apply rsum_le. intros j _. destruct (_ =? _)%nat; [apply Rmax_r|apply Rmax_l].
  Qed.
  Lemma rsum_nonpos l x : (forall y, In y l -> y <= 0) -> In x l -> rsum l <= x.
  Proof.
    intros H. assert (G : forall l', (forall y, In y l' -> y <= 0) -> rsum l' <= 0).
    { induction l' as [|y l' IH]; intros H'; [rewrite rsum_nil; lra|]. rewrite rsum_cons.
      assert (y <= 0) by (apply H'; now left). assert (rsum l' <= 0) by (apply IH; intros; apply H'; now right). lra. }
    revert H. induction l as [|y l IH]; intros H Hx; [destruct Hx|]. rewrite rsum_cons. destruct Hx as [->|Hx].
    - assert (rsum l <= 0) by (apply G; intros; apply H; now right). lra.
    - assert (y <= 0) by (apply H; now left). assert (rsum l <= x) by (apply IH; auto; intros; apply H; now right). lra.
  Qed.
  Lemma psum_neg l : (forall j, In j l -> p j <= 0) -> psum l = 0.
  Proof.
    intros H. unfold psum. rewrite (rsum_ext _ (fun _ => 0)); [rewrite rsum_const; lra|]. intros j Hj. apply Rmax_left. now apply H.
  Qed.
  Lemma p_le_pmax l j : In j l -> p j <= pmax l.
  Proof. intros H. apply rmaxs_ub. now apply in_map. Qed.
  Lemma gains_le_some b l j : In j l -> val b j = o -> gains b l <= psum l + Rmin 0 (pmax l).
  Proof.
    intros Hj Hv. destruct (Rle_or_lt 0 (pmax l)) as [HM|HM].
    - rewrite Rmin_left by exact HM. pose proof (gains_le b l). lra.
    - rewrite Rmin_right by lra. rewrite psum_neg by (intros i Hi; pose proof (p_le_pmax l i Hi); lra).
      apply Rle_trans with (p j); [|pose proof (p_le_pmax l j Hj); lra]. unfold gains. apply rsum_nonpos.
      + intros y Hy. apply in_map_iff in Hy. destruct Hy as [i [<- Hi]]. pose proof (p_le_pmax l i Hi). destruct (_ =? _)%nat; lra.
      + apply in_map_iff. exists j. rewrite Hv, Nat.eqb_refl. auto.
  Qed.
  (** The bounds are attained. *)
  Definition nonneg (j : nat) : bool := if Rle_dec 0 (p j) then true else false.
  Lemma gains_ext k q l : (forall j, In j l -> (j < k)%nat) ->
    gains (mkb k q) l = rsum (map (fun j => if q j then p j else 0) l).
  Proof.
    intros Hl. unfold gains. apply rsum_ext. intros j Hj. rewrite val_mkb by now apply Hl. destruct (q j).
    - now rewrite Nat.eqb_refl.
    - destruct (Nat.eqb_spec rs o) as [E|E]; [exfalso; apply o_ne_rs; auto|reflexivity].
  Qed.
  Lemma gains_nonneg k q l : (forall j, In j l -> (j < k)%nat /\ q j = nonneg j) -> gains (mkb k q) l = psum l.
  Proof.
    intros H. rewrite gains_ext by (intros; now apply H). unfold psum. apply rsum_ext. intros j Hj. destruct (H j Hj) as [_ ->].
    unfold nonneg. destruct (Rle_dec 0 (p j)); symmetry; [now apply Rmax_right|apply Rmax_left; lra].
  Qed.
  Lemma rsum_single (l : list nat) j x : NoDup l -> In j l -> rsum (map (fun i => if (i =? j)%nat then x else 0) l) = x.
  Proof.
    intros Hn Hj. rewrite (rsum_remove _ l j Hn Hj). rewrite Nat.eqb_refl.
    rewrite (rsum_ext _ (fun _ => 0)); [rewrite rsum_const; lra|]. intros i Hi. apply filter_In in Hi. destruct Hi as [_ Hi].
    destruct (i =? j)%nat; [discriminate|reflexivity].
  Qed.
  Lemma gains_attained k l : NoDup l -> (forall j, In j l -> (j < k)%nat) -> l <> [] ->
    exists q j, In j l /\ q j = true /\ (forall i, ~ In i l -> q i = false) /\ gains (mkb k q) l = psum l + Rmin 0 (pmax l).
  Proof.
    intros Hn Hl Hne. assert (HM : In (pmax l) (map p l)) by (apply rmaxs_In; destruct l; [contradiction|discriminate]).
    apply in_map_iff in HM. destruct HM as [j [Ej Hj]].
    destruct (Rle_or_lt 0 (pmax l)) as [H0|H0].
    - exists (fun i => if in_dec Nat.eq_dec i l then nonneg i else false), j. split; [exact Hj|]. split; [|split].
      + destruct (in_dec Nat.eq_dec j l); [|contradiction]. unfold nonneg. destruct (Rle_dec 0 (p j)); [reflexivity|lra].
      + intros i Hi. destruct (in_dec Nat.eq_dec i l); [contradiction|reflexivity].
      + rewrite gains_nonneg; [rewrite Rmin_left by exact H0; lra|]. intros i Hi. split; [now apply Hl|]. destruct (in_dec Nat.eq_dec i l); [reflexivity|contradiction].
    - exists (fun i => (i =? j)%nat), j. split; [exact Hj|]. split; [apply Nat.eqb_refl|]. split.
      + intros i Hi. destruct (Nat.eqb_spec i j); [subst; contradiction|reflexivity].
      + rewrite gains_ext by exact Hl. rewrite Rmin_right by lra.
        rewrite psum_neg by (intros i Hi; pose proof (p_le_pmax l i Hi); lra).
        rewrite (rsum_ext _ (fun i => if (i =? j)%nat then p j else 0)); [rewrite rsum_single by assumption; lra|].
        intros i _. destruct (Nat.eqb_spec i j); [now subst|reflexivity].
  Qed.

  (** ** Maxima over assignments *)
  Context (k : nat).
  Let all := seq 0 k.
  Let oth u := filter (fun j => negb (j =? u)%nat) all.
  Definition out (b : list Z) : nat := Z.to_nat (connective t b).

  Lemma out_o b j : In b (bools k) -> (j < k)%nat -> val b j = o -> out b = o.
  Proof.
    intros Hb Hj E. unfold out. rewrite (connective_spec k) by exact Hb.
    replace (existsb (fun i => val b i =? o)%nat (seq 0 k)) with true; [reflexivity|]. symmetry. apply existsb_exists.
    exists j. split; [apply in_seq; lia|]. rewrite E. apply Nat.eqb_refl.
  Qed.
  Lemma out_cases b : In b (bools k) ->
    (out b = o /\ exists j, (j < k)%nat /\ val b j = o) \/ (out b = rs /\ forall j, (j < k)%nat -> val b j = rs).
  Proof.
    intros Hb. unfold out. rewrite (connective_spec k) by exact Hb.
    destruct (existsb (fun i => val b i =? o)%nat (seq 0 k)) eqn:E.
    - left. split; [reflexivity|]. apply existsb_exists in E. destruct E as [j [Hj E]]. apply in_seq in Hj. apply Nat.eqb_eq in E. exists j. split; [lia|exact E].
    - right. split; [reflexivity|]. intros j Hj. destruct (two_states _ (val_lt k b j Hb)) as [F|F]; [|exact F]. exfalso.
      assert (existsb (fun i => val b i =? o)%nat (seq 0 k) = true); [|congruence]. apply existsb_exists. exists j.
      split; [apply in_seq; lia|]. rewrite F. apply Nat.eqb_refl.
  Qed.
  Lemma gains_zero b l : (forall j, In j l -> val b j = rs) -> gains b l = 0.
  Proof.
    intros H. unfold gains. rewrite (rsum_ext _ (fun _ => 0)); [rewrite rsum_const; lra|]. intros j Hj. rewrite H by exact Hj.
    destruct (Nat.eqb_spec rs o) as [E|E]; [exfalso; apply o_ne_rs; auto|reflexivity].
  Qed.
  Lemma In_oth u j : In j (oth u) <-> (j < k /\ j <> u)%nat.
  Proof. unfold oth, all. rewrite filter_In, in_seq. destruct (Nat.eqb_spec j u); cbn [negb]; split; intros [H1 H2]; split; try lia; try discriminate; try reflexivity; try contradiction. Qed.
  Lemma NoDup_oth u : NoDup (oth u). Proof. apply NoDup_filter, seq_NoDup. Qed.

  (** To the child. *)
  Definition child_scores (s : nat) : list R := map (fun b => wsum b all) (filter (fun b => out b =? s)%nat (bools k)).
  Lemma child_max : (0 < k)%nat ->
    rmaxs (child_scores o) = base all + (psum all + Rmin 0 (pmax all)) /\ rmaxs (child_scores rs) = base all.
  Proof.
    intros Hk. split; apply rmaxs_eq.
    - destruct (gains_attained k all) as [q [j [Hj [Hq [_ Hg]]]]]; [apply seq_NoDup|intros j Hj; apply in_seq in Hj; lia|unfold all; destruct k; [lia|discriminate]|].
      apply in_map_iff. exists (mkb k q). split; [rewrite (wsum_gains k) by apply mkb_In; now rewrite Hg|].
      apply filter_In. split; [apply mkb_In|]. apply Nat.eqb_eq. apply in_seq in Hj. apply (out_o _ j); [apply mkb_In|lia|]. rewrite val_mkb by lia. now rewrite Hq.
    - intros x Hx. apply in_map_iff in Hx. destruct Hx as [b [<- Hb]]. apply filter_In in Hb. destruct Hb as [Hb E]. apply Nat.eqb_eq in E.
      rewrite (wsum_gains k) by exact Hb. destruct (out_cases b Hb) as [[_ [j [Hj Hv]]]|[F _]]; [|exfalso; apply o_ne_rs; congruence].
      assert (In j all) by (apply in_seq; lia). pose proof (gains_le_some b all j H Hv). lra.
    - apply in_map_iff. exists (mkb k (fun _ => false)). split.
      + rewrite (wsum_gains k) by apply mkb_In. rewrite gains_zero; [lra|]. intros j Hj. apply in_seq in Hj. now rewrite val_mkb by lia.
      + apply filter_In. split; [apply mkb_In|]. apply Nat.eqb_eq. destruct (out_cases (mkb k (fun _ => false)) (mkb_In _ _)) as [[_ [j [Hj Hv]]]|[F _]]; [|exact F].
        rewrite val_mkb in Hv by exact Hj. exfalso. apply o_ne_rs. auto.
    - intros x Hx. apply in_map_iff in Hx. destruct Hx as [b [<- Hb]]. apply filter_In in Hb. destruct Hb as [Hb E]. apply Nat.eqb_eq in E.
      rewrite (wsum_gains k) by exact Hb. destruct (out_cases b Hb) as [[F _]|[_ F]]; [exfalso; apply o_ne_rs; congruence|].
      rewrite gains_zero; [lra|]. intros j Hj. apply in_seq in Hj. apply F. lia.
  Qed.

  (** To parent [u]. *)
  Definition parent_scores (u s : nat) : list R := map (fun b => wsum b (oth u) + w k (out b)) (filter (fun b => val b u =? s)%nat (bools k)).
  Lemma parent_max_o u : (u < k)%nat -> rmaxs (parent_scores u o) = base (oth u) + psum (oth u) + w k o.
  Proof.
    intros Hu. apply rmaxs_eq.
    - set (q := fun j => if (j =? u)%nat then true else nonneg j). apply in_map_iff. exists (mkb k q).
      assert (Hv : val (mkb k q) u = o) by (rewrite val_mkb by exact Hu; unfold q; now rewrite Nat.eqb_refl).
      split; [|apply filter_In; split; [apply mkb_In|now apply Nat.eqb_eq]].
      rewrite (wsum_gains k) by apply mkb_In. rewrite (out_o _ u) by (auto; apply mkb_In). rewrite gains_nonneg; [reflexivity|].
      intros j Hj. apply In_oth in Hj. split; [tauto|]. unfold q. destruct (Nat.eqb_spec j u); [tauto|reflexivity].
    - intros x Hx. apply in_map_iff in Hx. destruct Hx as [b [<- Hb]]. apply filter_In in Hb. destruct Hb as [Hb E]. apply Nat.eqb_eq in E.
      rewrite (wsum_gains k) by exact Hb. rewrite (out_o b u) by auto. pose proof (gains_le b (oth u)). lra.
  Qed.
  Lemma parent_max_rs u : (u < k)%nat ->
    rmaxs (parent_scores u rs) = base (oth u) +
      match oth u with [] => w k rs | _ => Rmax (w k rs) (w k o + (psum (oth u) + Rmin 0 (pmax (oth u)))) end.
  Proof.
    intros Hu.
    assert (I1 : In (base (oth u) + w k rs) (parent_scores u rs)).
    { apply in_map_iff. exists (mkb k (fun _ => false)).
      assert (Hv : forall j, (j < k)%nat -> val (mkb k (fun _ => false)) j = rs) by (intros j Hj; now rewrite val_mkb).
      split; [|apply filter_In; split; [apply mkb_In|apply Nat.eqb_eq; now apply Hv]].
      rewrite (wsum_gains k) by apply mkb_In. rewrite gains_zero by (intros j Hj; apply In_oth in Hj; apply Hv; tauto).
      destruct (out_cases (mkb k (fun _ => false)) (mkb_In _ _)) as [[_ [j [Hj F]]]|[-> _]]; [|lra].
      rewrite Hv in F by exact Hj. exfalso. apply o_ne_rs. auto. }
    assert (U : forall x, In x (parent_scores u rs) -> x = base (oth u) + w k rs \/
                 (oth u <> [] /\ x <= base (oth u) + (w k o + (psum (oth u) + Rmin 0 (pmax (oth u)))))).
    { intros x Hx. apply in_map_iff in Hx. destruct Hx as [b [<- Hb]]. apply filter_In in Hb. destruct Hb as [Hb E]. apply Nat.eqb_eq in E.
      rewrite (wsum_gains k) by exact Hb. destruct (out_cases b Hb) as [[-> [j [Hj Hv]]]|[-> Hv]].
      - right. assert (Hi : In j (oth u)) by (apply In_oth; split; [exact Hj|intros ->; apply o_ne_rs; congruence]).
        split; [intros F; rewrite F in Hi; destruct Hi|]. pose proof (gains_le_some b (oth u) j Hi Hv). lra.
      - left. rewrite gains_zero; [lra|]. intros j Hj. apply In_oth in Hj. apply Hv. tauto. }
    destruct (oth u) as [|j0 l0] eqn:El.
    - apply rmaxs_eq; [exact I1|]. intros x Hx. destruct (U x Hx) as [->|[F _]]; [lra|contradiction].
    - rewrite <- El in *.
      assert (I2 : In (base (oth u) + (w k o + (psum (oth u) + Rmin 0 (pmax (oth u))))) (parent_scores u rs)).
      { destruct (gains_attained k (oth u)) as [q [j [Hj [Hq [Hnot Hg]]]]]; [apply NoDup_oth|intros j Hj; apply In_oth in Hj; tauto|rewrite El; discriminate|].
        apply in_map_iff. exists (mkb k q).
        pose proof (proj1 (In_oth u j) Hj) as [Hj1 Hj2].
        split; [|apply filter_In; split; [apply mkb_In|]].
        - rewrite (wsum_gains k) by apply mkb_In. rewrite Hg. rewrite (out_o _ j); [lra|apply mkb_In|exact Hj1|]. rewrite val_mkb by exact Hj1. now rewrite Hq.
        - apply Nat.eqb_eq. rewrite val_mkb by exact Hu. rewrite Hnot; [reflexivity|]. intros F. apply In_oth in F. tauto. }
      rewrite Rplus_max_distr_l || idtac.
      unfold Rmax. destruct (Rle_dec _ _) as [H|H]; (apply rmaxs_eq; [assumption|]); intros x Hx; destruct (U x Hx) as [->|[_ F]]; lra.
  Qed.
End Assign.
