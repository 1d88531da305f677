(** * OR and AND factors when exponentials underflow (C67). *)
From Verif Require Import NumPy Lists FGraph BP Rounded SpecFactor SpecWiring SpecState SpecBP SpecRounded SpecUnderflow.
From Verif Require Import LemNum LemNorm LemVtoF LemEnum LemLogCode LemLogical LemBruteSoft LemLogBP LemTemp LemRounded.
From Coq Require Import Reals Lra Lia.
Local Open Scope nat_scope.

Section RCode.
  Context (rnd ex lg : R -> R).
  Let N := RoundNum rnd ex lg.
  Context (ks : list nat) (P : nat * nat -> R) (C : nat -> R) (T : R).
  Let nf := length ks.
  Let k f := nth f ks 0.
  Let pp := positions ks.
  Let lab (p : nat * nat) : Z := Z.of_nat (fst p).
  Definition lsN (p : R) : R := @nmul R N (@nopp R N T) (@log_sigmoid R N (@ndiv R N (@nopp R N p) T)).
  Definition sumN (f : nat) : R := fold_left (fun x y => rnd (x + y)%R) (map (fun u => lsN (P (f, u))) (seq 0 (k f))) 0%R.
  Definition parN (g c : R) : R :=
    @nmul R N (@nopp R N T) (@nln R N (@nadd R N (@sigmoid R N (@ndiv R N g T))
      (@nmul R N (@sigmoid R N (@ndiv R N (@nopp R N g) T)) (@nexp R N (@ndiv R N (@nopp R N c) T))))).
  Lemma logical_sum_code_N :
    @logical_sum_product R N T (map P pp) (map C (seq 0 nf)) (map lab pp) nf
    = (map (fun p => parN (@g_fun R N T (rnd (sumN (fst p) - lsN (P p))%R)) (C (fst p))) pp,
       map (fun f => @g_fun R N T (sumN f)) (seq 0 nf)).
  Proof.
    unfold logical_sum_product. rewrite map_map.
    assert (E2 : scatter (@nadd R N) (repeat (@n0 R N) nf) (map lab pp) (map (fun x => lsN (P x)) pp) = map sumN (seq 0 nf)).
    { rewrite repeat_as_map. unfold nf, pp, lab. rewrite scatter_fac. reflexivity. }
    change (fun x => @nmul R N (@nopp R N T) (@log_sigmoid R N (@ndiv R N (@nopp R N (P x)) T))) with (fun x => lsN (P x)).
    rewrite E2. unfold nf, pp, lab. rewrite !gather_fac. unfold vsub. rewrite !map2_map, !map_map, map2_map. reflexivity.
  Qed.
End RCode.

Section Under.
  Context (rnd ex lg : R -> R) (U T : R).
  Hypothesis HU : underflowing rnd ex lg U T.
  Let N := RoundNum rnd ex lg.
  Lemma under_rounding : is_rounding rnd. Proof. exact (proj1 HU). Qed.
  Notation Hr := under_rounding.
  Local Open Scope R_scope.

  Lemma rnd_idem x : rnd (rnd x) = rnd x. Proof. apply Hr. Qed.
  Lemma rnd_U : rnd (U) = U. Proof. apply HU. Qed.
  Lemma rnd_mU : rnd (- U) = - U.
  Proof. apply HU. Qed.
  Lemma opp_le p : p <= - (U * T) -> U * T <= rnd (0 - p).
  Proof.
    intros H. destruct HU as [_ [_ [_ [_ [H1 _]]]]]. unfold representable in H1. rewrite <- H1 at 1. apply (rnd_mono rnd Hr). lra.
  Qed.
  Lemma div_ge x : U * T <= x -> U <= rnd (x / T).
  Proof.
    intros H. destruct HU as [_ [HT _]]. rewrite <- rnd_U. apply (rnd_mono rnd Hr). apply Rmult_le_reg_r with T; [exact HT|].
    unfold Rdiv. rewrite Rmult_assoc, Rinv_l, Rmult_1_r by lra. exact H.
  Qed.
  Lemma opp_ge x : U <= x -> rnd (0 - x) <= - U.
  Proof. intros H. rewrite <- rnd_mU. apply (rnd_mono rnd Hr). lra. Qed.

  (** A strong message of a parent leaves nothing. *)
  Lemma lsN_0 p : p <= - (U * T) -> lsN rnd ex lg T p = 0.
  Proof.
    intros H. unfold lsN, log_sigmoid, nopp, n0, n1. cbn [nmul nsub nofZ nln nadd nexp ndiv RoundNum].
    destruct HU as [_ [HT [_ [_ [_ [_ [Hex [_ Hlg]]]]]]]].
    rewrite (Hex _ (opp_ge _ (div_ge _ (opp_le _ H)))). rewrite Rplus_0_r. replace (rnd 1) with 1 by (symmetry; apply (rnd_Z rnd Hr 1); lia).
    rewrite Hlg, Rminus_0_r, (rnd_0 rnd Hr), Rmult_0_r. apply (rnd_0 rnd Hr).
  Qed.
  Lemma lsN_repr p : rnd (lsN rnd ex lg T p) = lsN rnd ex lg T p.
  Proof. unfold lsN. apply rnd_idem. Qed.

  (** Sums with at most one non-zero term. *)
  Lemma fold_zeros (l : list R) b : rnd b = b -> (forall x, In x l -> x = 0) -> fold_left (fun x y => rnd (x + y)) l b = b.
  Proof.
    intros Hb. induction l as [|x l IH]; intros H; [reflexivity|]. cbn [fold_left]. rewrite (H x) by (left; reflexivity).
    rewrite Rplus_0_r, Hb. apply IH. intros y Hy. apply H. now right.
  Qed.
  Lemma fold_single (h : nat -> R) n u : (u < n)%nat -> rnd (h u) = h u -> (forall j, (j < n)%nat -> j <> u -> h j = 0) ->
    fold_left (fun x y => rnd (x + y)) (map h (seq 0 n)) 0 = h u.
  Proof.
    intros Hu Hh Hz. replace n with (u + S (n - u - 1))%nat by lia. rewrite seq_app, map_app, fold_left_app. cbn [seq map fold_left Nat.add].
    rewrite (fold_zeros (map h (seq 0 u)) 0); [|apply (rnd_0 rnd Hr)|].
    - rewrite Rplus_0_l, Hh. apply fold_zeros; [exact Hh|]. intros x Hx. apply in_map_iff in Hx. destruct Hx as [j [<- Hj]]. apply in_seq in Hj. apply Hz; lia.
    - intros x Hx. apply in_map_iff in Hx. destruct Hx as [j [<- Hj]]. apply in_seq in Hj. apply Hz; lia.
  Qed.
  Lemma g_fun_0 : @g_fun R N T 0 = 0.
  Proof. unfold g_fun, n0. cbn [neqb nofZ N RoundNum]. destruct (Req_EM_T 0 0); [reflexivity|contradiction]. Qed.
  Lemma rnd_1 : rnd 1 = 1. Proof. apply (rnd_Z rnd Hr 1); lia. Qed.
  Lemma sigmoid_0 : @sigmoid R N 0 = rnd (1 / 2).
  Proof.
    unfold sigmoid, nopp, n0, n1. cbn [ndiv nofZ nadd nexp nsub N RoundNum]. destruct HU as [_ [_ [_ [_ [_ [_ [_ [He _]]]]]]]].
    rewrite Rminus_0_r, (rnd_0 rnd Hr), He. replace (1 + 1) with 2 by lra. rewrite (rnd_Z rnd Hr 2) by lia. reflexivity.
  Qed.
  Lemma parN_0 c : U * T <= c -> parN rnd ex lg T 0 c = rnd (rnd (- T) * lg (rnd (1 / 2))).
  Proof.
    intros Hc. destruct HU as [_ [HT [_ [_ [_ [H2 [Hex _]]]]]]]. unfold parN. fold N.
    assert (E : @ndiv R N 0 T = 0) by (cbn [ndiv N RoundNum]; unfold Rdiv; rewrite Rmult_0_l; apply (rnd_0 rnd Hr)).
    assert (E' : @nopp R N 0 = 0) by (unfold nopp, n0; cbn [nsub nofZ N RoundNum]; rewrite Rminus_0_r; apply (rnd_0 rnd Hr)).
    rewrite E', E, sigmoid_0. unfold nopp, n0. cbn [nmul nsub nofZ nln nadd nexp ndiv N RoundNum].
    rewrite Hex.
    - rewrite Rmult_0_r, (rnd_0 rnd Hr), Rplus_0_r, rnd_idem. f_equal. f_equal. f_equal. lra.
    - assert (L : rnd (0 - c) <= - (U * T)).
      { unfold representable in H2. rewrite <- H2. apply (rnd_mono rnd Hr). lra. }
      rewrite <- rnd_mU. apply (rnd_mono rnd Hr). apply Rmult_le_reg_r with T; [exact HT|].
      unfold Rdiv. rewrite Rmult_assoc, Rinv_l, Rmult_1_r by lra. lra.
  Qed.
End Under.

Lemma deciding_o t : t <> TEnum -> deciding t = 1 - relevant_state t /\ 1 - deciding t = relevant_state t.
Proof. destruct t; [congruence|split; reflexivity|split; reflexivity]. Qed.
Section Facs.
  Context (t : ftype) (vss : list (list variable)) (vt : list R).
  Hypothesis Ht : t <> TEnum.
  Hypothesis Hok : logical_ok vss.
  Let fs := map (logical_sf 0%R t) vss.
  Hypothesis Hvt : length vt = total_states fs.
  Let v := read_msgs fs vt.
  Let ks := par_counts vss.
  Let k f := nth f ks 0.
  Let rs := relevant_state t.
  Let o := 1 - rs.

  Lemma parents_k f : f < length vss -> parents fs f = k f.
  Proof. intros Hf. unfold parents, fs. rewrite (arity_logical 0%R t vss Hok f Hf). fold ks. fold (k f). lia. Qed.
  Lemma lean_diff f u : lean t v f u = (v f u o - v f u rs)%R.
  Proof. unfold lean. destruct (deciding_o t Ht) as [-> E2]. rewrite <- E2 at 1. unfold o, rs. destruct t; [congruence|reflexivity|reflexivity]. Qed.

  Section R.
    Context (rnd ex lg : R -> R) (U T : R).
    Hypothesis HU : underflowing rnd ex lg U T.
    Let N := RoundNum rnd ex lg.
    Let P := pdiff_N 0%R t vss vt N.
    Let C := cdiff_N 0%R t vss vt N.
    Local Open Scope R_scope.
    Lemma P_le f u : lean t v f u <= - (U * T) -> P (f, u) <= - (U * T).
    Proof.
      intros H. rewrite lean_diff in H. destruct HU as [Hr [_ [_ [_ [_ [H2 _]]]]]]. unfold representable in H2. rewrite <- H2.
      apply (rnd_mono rnd Hr). exact H.
    Qed.
    Lemma C_ge f : U * T <= lean t v f (k f) -> U * T <= C f.
    Proof.
      intros H. rewrite lean_diff in H. destruct HU as [Hr [_ [_ [_ [H1 _]]]]]. unfold representable in H1. rewrite <- H1 at 1.
      apply (rnd_mono rnd Hr). exact H.
    Qed.
    Lemma rounded_code f u s : (f < length vss)%nat -> (u <= k f)%nat -> (s < 2)%nat ->
      read_msgs fs (@pass_logical_fac_to_var_messages R N vt (lf_parents rs vss) (lf_children rs vss) (type_offset t) T) f u s
      = if (s =? o)%nat then (if (u <? k f)%nat then (if (k f =? 1)%nat then C f
            else parN rnd ex lg T (@g_fun R N T (rnd (sumN rnd ex lg ks P T f - lsN rnd ex lg T (P (f, u))))) (C f))
          else @g_fun R N T (sumN rnd ex lg ks P T f)) else 0.
    Proof.
      intros Hf Hu Hs.
      pose proof (logical_sum_code_N rnd ex lg ks P C T) as E. change (length ks) with (length (par_counts vss)) in E. rewrite (ks_nf vss) in E.
      epose proof (pass_logical_code_N 0 t vss Hok Ht vt Hvt N T _ _ eq_refl) as PC.
      replace (@neqb R N T 0) with false in PC.
      2:{ destruct HU as [_ [HT _]]. cbn [neqb N RoundNum]. destruct (Req_EM_T T 0); [lra|reflexivity]. }
      specialize (PC E). rewrite PC by assumption. reflexivity.
    Qed.
    Lemma child_rounded f s : (f < length vss)%nat -> (s < 2)%nat ->
      (forall u, (u < k f)%nat -> lean t v f u <= - (U * T)) ->
      read_msgs fs (@pass_logical_fac_to_var_messages R N vt (lf_parents rs vss) (lf_children rs vss) (type_offset t) T) f (k f) s = 0.
    Proof.
      intros Hf Hs H. rewrite rounded_code by (assumption || lia). destruct (s =? o)%nat; [|reflexivity]. rewrite Nat.ltb_irrefl.
      replace (sumN rnd ex lg ks P T f) with 0; [apply g_fun_0|]. symmetry. unfold sumN. apply fold_zeros; [apply (rnd_0 rnd (proj1 HU))|].
      intros x Hx. apply in_map_iff in Hx. destruct Hx as [u [<- Hu]]. apply in_seq in Hu. apply (lsN_0 rnd ex lg U T HU). apply P_le, H. unfold k. lia.
    Qed.
    Lemma parent_rounded f u : (f < length vss)%nat -> (u < k f)%nat -> (2 <= k f)%nat ->
      (forall j, (j < k f)%nat -> j <> u -> lean t v f j <= - (U * T)) -> U * T <= lean t v f (k f) ->
      lean t (read_msgs fs (@pass_logical_fac_to_var_messages R N vt (lf_parents rs vss) (lf_children rs vss) (type_offset t) T)) f u
      = rnd (rnd (- T) * lg (rnd (1 / 2))).
    Proof.
      intros Hf Hu H2 H Hc. unfold lean. destruct (deciding_o t Ht) as [-> _]. fold rs. fold o.
      assert (Lo : (o < 2 /\ 1 - o < 2 /\ (1 - o =? o) = false)%nat) by (unfold o, rs; destruct t; cbn; auto with arith).
      destruct Lo as [L1 [L2 L3]]. rewrite !rounded_code by (assumption || lia). rewrite Nat.eqb_refl, L3, Rminus_0_r.
      replace (u <? k f)%nat with true by (symmetry; apply Nat.ltb_lt; exact Hu).
      replace (k f =? 1)%nat with false by (symmetry; apply Nat.eqb_neq; lia).
      replace (sumN rnd ex lg ks P T f) with (lsN rnd ex lg T (P (f, u))).
      - rewrite Rminus_diag_eq by reflexivity. rewrite (rnd_0 rnd (proj1 HU)). replace (@g_fun R N T 0) with 0 by (symmetry; apply (g_fun_0 rnd ex lg T)). apply (parN_0 rnd ex lg U T HU). now apply C_ge.
      - symmetry. unfold sumN. apply (fold_single rnd ex lg U T HU (fun u => lsN rnd ex lg T (P (f, u)))).
        + exact Hu.
        + apply (lsN_repr rnd ex lg U T HU).
        + intros j Hj Hne. apply (lsN_0 rnd ex lg U T HU). apply P_le. now apply H.
    Qed.
  End R.

  (** ** Exact arithmetic *)
  Local Open Scope R_scope.
  Lemma rprod_small (h : nat -> R) x l : 0 <= x <= 1 -> (forall j, In j l -> 0 < h j <= x) ->
    rprod (map (fun j => 1 + h j) l) - 1 <= (2 ^ length l - 1) * x.
  Proof.
    intros Hx. induction l as [|a l IH]; intros H; [unfold rprod; cbn; lra|].
    change (rprod (map (fun j => 1 + h j) (a :: l))) with ((1 + h a) * rprod (map (fun j => 1 + h j) l)).
    destruct (H a (or_introl eq_refl)) as [H1 H2]. specialize (IH (fun j Hj => H j (or_intror Hj))). cbn [length pow].
    set (p := rprod _) in *. set (b := 2 ^ length l) in *.
    assert (Hb : 1 <= b) by (unfold b; apply pow_R1_Rle; lra).
    assert (p <= 1 + (b - 1) * x) by lra. assert ((b - 1) * x <= (b - 1) * 1) by (apply Rmult_le_compat_l; lra).
    assert (h a * p <= x * b).
    { assert (p <= b) by lra. apply Rle_trans with (h a * b); [apply Rmult_le_compat_l; lra|apply Rmult_le_compat_r; lra]. }
    lra.
  Qed.
  Lemma child_exact T b f : 0 < T -> 0 <= b -> (f < length vss)%nat ->
    (forall u, (u < k f)%nat -> lean t v f u <= - b) ->
    lean t (read_msgs fs (pass_logical_fac_to_var_messages vt (lf_parents rs vss) (lf_children rs vss) (type_offset t) T)) f (k f)
    <= T * (INR (k f) * ln 2) - b.
  Proof.
    intros HT Hb Hf H. pose proof (logical_sum_code ks (pdiff 0 t vss vt) (cdiff 0 t vss vt) T ltac:(lra)) as E. change (length ks) with (length (par_counts vss)) in E. rewrite (ks_nf vss) in E.
    epose proof (pass_logical_code 0 t vss Hok Ht vt Hvt T _ _) as PC.
    replace (neqb T 0%R) with false in PC by (symmetry; apply neqb_R_false; lra). specialize (PC E). clear E.
    unfold lean at 1. destruct (deciding_o t Ht) as [-> _]. fold rs. fold o.
    assert (Lo : (o < 2 /\ 1 - o < 2 /\ (1 - o =? o) = false)%nat) by (unfold o, rs; destruct t; cbn; auto with arith).
    destruct Lo as [L1 [L2 L3]]. unfold fs, rs. rewrite !PC by (assumption || (unfold k, ks; lia)). fold rs. fold o. fold ks. fold (k f).
    rewrite Nat.eqb_refl, L3, Rminus_0_r, Nat.ltb_irrefl.
    pose proof (k_pos t vss Hok f Hf) as Hk. cbv beta in Hk. fold ks in Hk. fold (k f) in Hk.
    rewrite (ls_sum_ln 0 t vss vt T f) by lra.
    set (h := fun j => exp ((v f j o - v f j rs) / T)).
    change (rprod (map (fun j => 1 + exp ((read_msgs (map (logical_sf 0 t) vss) vt f j (1 - relevant_state t)%nat - read_msgs (map (logical_sf 0 t) vss) vt f j (relevant_state t)) / T)) (seq 0 (k f)))) with (rprod (map (fun j => 1 + h j) (seq 0 (k f)))).
    set (Q := rprod _).
    assert (HQ : 1 < Q).
    { apply rprod_gt1; [|intros j _; unfold h; pose proof (exp_pos ((v f j o - v f j rs) / T)); lra]. destruct (k f); [lia|discriminate]. }
    rewrite g_fun_ln by lra.
    assert (HQ2 : Q - 1 <= 2 ^ k f * exp (- b / T)).
    { assert (X : Q - 1 <= (2 ^ length (seq 0 (k f)) - 1) * exp (- b / T)).
      { apply rprod_small.
        - split; [left; apply exp_pos|]. rewrite <- exp_0. apply LemTemp.exp_le. unfold Rdiv. assert (0 <= b * / T); [|lra]. apply Rmult_le_pos; [lra|left; now apply Rinv_0_lt_compat].
        - intros j Hj. apply in_seq in Hj. split; [apply exp_pos|]. unfold h. apply LemTemp.exp_le. unfold Rdiv. apply Rmult_le_compat_r; [left; now apply Rinv_0_lt_compat|].
          specialize (H j ltac:(lia)). now rewrite lean_diff in H. }
      rewrite seq_length in X. pose proof (exp_pos (- b / T)). lra. }
    replace (T * (INR (k f) * ln 2) - b) with (T * (INR (k f) * ln 2 + - b / T)) by (field; lra).
    apply Rmult_le_compat_l; [lra|].
    assert (E2 : ln (2 ^ k f * exp (- b / T)) = INR (k f) * ln 2 + - b / T).
    { rewrite ln_mult; [|apply pow_lt; lra|apply exp_pos]. rewrite ln_exp, ln_pow by lra. reflexivity. }
    rewrite <- E2. destruct (Rle_lt_or_eq_dec _ _ HQ2) as [L|E3]; [left; apply ln_increasing; lra|rewrite E3; apply Rle_refl].
  Qed.
  Lemma others_length f u : (u < k f)%nat -> length (others ks f u) = (k f - 1)%nat.
  Proof.
    intros Hu. unfold others. fold (k f). replace (k f) with (u + S (k f - u - 1))%nat at 1 by lia. rewrite seq_app, filter_app, app_length. cbn [Nat.add seq filter].
    rewrite Nat.eqb_refl. cbn [negb]. rewrite !filter_all_true, !seq_length; [lia| |]; intros x Hx; apply in_seq in Hx; apply negb_true_iff, Nat.eqb_neq; lia.
  Qed.
  Lemma parent_exact T b f u : 0 < T -> 0 <= b -> (f < length vss)%nat -> (u < k f)%nat ->
    (forall j, (j < k f)%nat -> j <> u -> lean t v f j <= - b) -> b <= lean t v f (k f) ->
    b - T * (INR (k f - 1) * ln 2)
    <= lean t (read_msgs fs (pass_logical_fac_to_var_messages vt (lf_parents rs vss) (lf_children rs vss) (type_offset t) T)) f u.
  Proof.
    intros HT Hb Hf Hu H Hc. pose proof (logical_sum_code ks (pdiff 0 t vss vt) (cdiff 0 t vss vt) T ltac:(lra)) as E.
    change (length ks) with (length (par_counts vss)) in E. rewrite (ks_nf vss) in E.
    epose proof (pass_logical_code 0 t vss Hok Ht vt Hvt T _ _) as PC.
    replace (neqb T 0%R) with false in PC by (symmetry; apply neqb_R_false; lra). specialize (PC E). clear E.
    unfold lean at 1. destruct (deciding_o t Ht) as [-> _]. fold rs. fold o.
    assert (Lo : (o < 2 /\ 1 - o < 2 /\ (1 - o =? o) = false)%nat) by (unfold o, rs; destruct t; cbn; auto with arith).
    destruct Lo as [L1 [L2 L3]]. unfold fs, rs. rewrite !PC by (assumption || (unfold k, ks in *; lia)). fold rs. fold o. fold ks. fold (k f).
    rewrite Nat.eqb_refl, L3, Rminus_0_r. replace (u <? k f)%nat with true by (symmetry; apply Nat.ltb_lt; exact Hu). cbn [fst snd].
    rewrite lean_diff in Hc. change (v f (k f) o - v f (k f) rs) with (cdiff 0 t vss vt f) in Hc. set (c := cdiff 0 t vss vt f) in *.
    destruct (Nat.eqb_spec (k f) 1) as [E1|E1]; [rewrite E1; cbn [Nat.sub INR]; lra|].
    rewrite (ls_sum_ln 0 t vss vt T f) by lra.
    set (h := fun j => exp ((v f j o - v f j rs) / T)).
    change (rprod (map (fun j => 1 + exp ((read_msgs (map (logical_sf 0 t) vss) vt f j (1 - relevant_state t)%nat - read_msgs (map (logical_sf 0 t) vss) vt f j (relevant_state t)) / T)) (others ks f u))) with (rprod (map (fun j => 1 + h j) (others ks f u))).
    set (Q := rprod _). pose proof (others_length f u Hu) as OL.
    assert (HQ : 1 < Q).
    { apply rprod_gt1; [|intros j _; unfold h; pose proof (exp_pos ((v f j o - v f j rs) / T)); lra]. intros F. rewrite F in OL. cbn in OL. lia. }
    rewrite par_soft_ln by lra.
    assert (HQ2 : Q - 1 + exp (- c / T) <= 2 ^ (k f - 1) * exp (- b / T)).
    { assert (X : Q - 1 <= (2 ^ length (others ks f u) - 1) * exp (- b / T)).
      { apply rprod_small.
        - split; [left; apply exp_pos|]. rewrite <- exp_0. apply LemTemp.exp_le. unfold Rdiv. assert (0 <= b * / T); [|lra]. apply Rmult_le_pos; [lra|left; now apply Rinv_0_lt_compat].
        - intros j Hj. apply In_others in Hj. split; [apply exp_pos|]. unfold h. apply LemTemp.exp_le. unfold Rdiv. apply Rmult_le_compat_r; [left; now apply Rinv_0_lt_compat|].
          destruct Hj as [Hj1 Hj2]. specialize (H j Hj1 Hj2). now rewrite lean_diff in H. }
      rewrite OL in X.
      assert (exp (- c / T) <= exp (- b / T)).
      { apply LemTemp.exp_le. unfold Rdiv. apply Rmult_le_compat_r; [left; now apply Rinv_0_lt_compat|lra]. }
      lra. }
    assert (0 < ln Q) by (rewrite <- ln_1; apply ln_increasing; lra).
    replace (b - T * (INR (k f - 1) * ln 2)) with (T * (0 - (INR (k f - 1) * ln 2 + - b / T))) by (field; lra).
    apply Rmult_le_compat_l; [lra|].
    assert (E2 : ln (2 ^ (k f - 1) * exp (- b / T)) = INR (k f - 1) * ln 2 + - b / T).
    { rewrite ln_mult; [|apply pow_lt; lra|apply exp_pos]. rewrite ln_exp, ln_pow by lra. reflexivity. }
    rewrite <- E2. pose proof (exp_pos (- c / T)).
    assert (ln (Q - 1 + exp (- c / T)) <= ln (2 ^ (k f - 1) * exp (- b / T))); [|lra].
    destruct (Rle_lt_or_eq_dec _ _ HQ2) as [L|E3]; [left; apply ln_increasing; lra|rewrite E3; apply Rle_refl].
  Qed.
End Facs.
