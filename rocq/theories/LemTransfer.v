(** * At temperature 0 the code computes the same over the rationals as over the reals.
    Examples evaluated over the rationals are thereby examples over the reals. *)
From Verif Require Import NumPy Lists FGraph BPState BP.
From Coq Require Import Reals QArith Qreals Lra Lia.
Local Close Scope Q_scope.
Local Close Scope R_scope.
Local Open Scope nat_scope.

Section Lists.
  Context {A B : Type} (h : A -> B).
  Lemma map_upd i (f : A -> A) (f' : B -> B) xs : (forall x, h (f x) = f' (h x)) -> map h (upd i f xs) = upd i f' (map h xs).
  Proof. intros H. revert i. induction xs as [|x xs IH]; intros [|i]; cbn; [reflexivity|reflexivity|now rewrite H|now rewrite IH]. Qed.
  Lemma map_scatter {V W} (k : V -> W) (f : A -> V -> A) (f' : B -> W -> B) xs idx vals :
    (forall x v, h (f x v) = f' (h x) (k v)) -> map h (scatter f xs idx vals) = scatter f' (map h xs) idx (map k vals).
  Proof.
    intros H. unfold scatter. revert xs vals. induction idx as [|i idx IH]; intros xs [|v vals]; cbn [combine fold_left map]; try reflexivity.
    rewrite IH. f_equal. unfold scatter1. cbn [fst snd]. rewrite map_length. destruct (_ <? 0)%Z; [reflexivity|]. now apply map_upd.
  Qed.
  Lemma map_scatter_set xs idx vals : map h (scatter_set xs idx vals) = scatter_set (map h xs) idx (map h vals).
  Proof. unfold scatter_set. now apply map_scatter. Qed.
  Lemma map_gather d xs idx : map h (gather d xs idx) = gather (h d) (map h xs) idx.
  Proof. unfold gather. rewrite map_map. apply map_ext. intros i. unfold gather1. rewrite map_length. symmetry. apply map_nth. Qed.
  Lemma map_slice xs a b : map h (slice xs a b) = slice (map h xs) a b.
  Proof. unfold slice. now rewrite <- firstn_map, <- skipn_map. Qed.
  Lemma map_dynamic xs s n : map h (dynamic_slice xs s n) = dynamic_slice (map h xs) s n.
  Proof. unfold dynamic_slice. now rewrite map_slice, map_length. Qed.
  Lemma map_blit a vs xs : map h (blit a vs xs) = blit a (map h vs) (map h xs).
  Proof.
    revert a xs. induction vs as [|v vs IH]; intros a xs; cbn [blit map]; [reflexivity|]. rewrite IH. f_equal. now apply map_upd.
  Qed.
  Lemma map_rep x n : map h (repeat x n) = repeat (h x) n.
  Proof. induction n as [|n IH]; cbn; [reflexivity|now rewrite IH]. Qed.
  Lemma map_last xs d : h (last xs d) = last (map h xs) (h d).
  Proof. induction xs as [|x [|y xs] IH]; [reflexivity|reflexivity|exact IH]. Qed.
  Lemma map_jnp_repeat d xs reps n : map h (jnp_repeat d xs reps n) = jnp_repeat (h d) (map h xs) reps n.
  Proof.
    unfold jnp_repeat. assert (E : map h (concat (map2 (fun x r => repeat x r) xs reps)) = concat (map2 (fun x r => repeat x r) (map h xs) reps)).
    { revert reps. induction xs as [|x xs IH]; intros [|r reps]; cbn [map2 map concat]; try reflexivity. now rewrite map_app, map_rep, IH. }
    now rewrite <- firstn_map, map_app, map_rep, map_last, E.
  Qed.
End Lists.
Lemma map_map2 {A B C A' B' C'} (f : A -> B -> C) (f' : A' -> B' -> C') (h1 : A -> A') (h2 : B -> B') (h : C -> C') xs ys :
  (forall x y, h (f x y) = f' (h1 x) (h2 y)) -> map h (map2 f xs ys) = map2 f' (map h1 xs) (map h2 ys).
Proof. intros H. revert ys. induction xs as [|x xs IH]; intros [|y ys]; cbn; try reflexivity. now rewrite H, IH. Qed.

Section Hom.
  Context {A B : Type} `{Num A} `{Num B} (h : A -> B).
  Hypothesis h_ofZ : forall z, h (nofZ z) = nofZ z.
  Hypothesis h_add : forall x y, h (nadd x y) = nadd (h x) (h y).
  Hypothesis h_sub : forall x y, h (nsub x y) = nsub (h x) (h y).
  Hypothesis h_mul : forall x y, h (nmul x y) = nmul (h x) (h y).
  Hypothesis h_lt : forall x y, nltb (h x) (h y) = nltb x y.
  Hypothesis h_eq : forall x y, neqb (h x) (h y) = neqb x y.
  Hypothesis zero_A : neqb (n0 : A) n0 = true.
  Hypothesis zero_B : neqb (n0 : B) n0 = true.

  Lemma h_n0 : h n0 = n0. Proof. apply h_ofZ. Qed.
  Lemma h_neg_inf : h NEG_INF = NEG_INF. Proof. apply h_ofZ. Qed.
  Lemma h_max x y : h (nmax x y) = nmax (h x) (h y).
  Proof. unfold nmax. rewrite h_lt. now destruct (nltb x y). Qed.
  Lemma h_min x y : h (nmin x y) = nmin (h x) (h y).
  Proof. unfold nmin. rewrite h_lt. now destruct (nltb y x). Qed.
  Lemma h_opp x : h (nopp x) = nopp (h x).
  Proof. unfold nopp. now rewrite h_sub, h_n0. Qed.
  Lemma h_vadd xs ys : map h (vadd xs ys) = vadd (map h xs) (map h ys). Proof. apply map_map2. exact h_add. Qed.
  Lemma h_vsub xs ys : map h (vsub xs ys) = vsub (map h xs) (map h ys). Proof. apply map_map2. exact h_sub. Qed.
  Lemma h_gather xs idx : map h (gather n0 xs idx) = gather n0 (map h xs) idx. Proof. now rewrite map_gather, h_n0. Qed.
  Lemma h_scatter_add xs idx vals : map h (scatter nadd xs idx vals) = scatter nadd (map h xs) idx (map h vals).
  Proof. apply map_scatter. exact h_add. Qed.
  Lemma h_scatter_max xs idx vals : map h (scatter nmax xs idx vals) = scatter nmax (map h xs) idx (map h vals).
  Proof. apply map_scatter. exact h_max. Qed.
  Lemma h_jmax xs : h (jmax xs) = jmax (map h xs).
  Proof.
    destruct xs as [|x xs]; cbn [jmax map]; [apply h_n0|]. revert x. induction xs as [|y xs IH]; intros x; cbn [fold_left map]; [reflexivity|].
    now rewrite IH, h_max.
  Qed.
  Lemma h_segment_max data lens m : map h (segment_max_opt data lens m) = segment_max_opt (map h data) lens m.
  Proof.
    unfold segment_max_opt. set (st := removelast _). clearbody st. revert lens. induction st as [|s st IH]; intros [|n lens]; cbn [map2 map]; try reflexivity.
    rewrite IH. f_equal. unfold get_max. rewrite h_jmax. f_equal. replace (map h data ++ repeat n0 m) with (map h (data ++ repeat n0 m)) by (rewrite map_app, map_rep, h_n0; reflexivity).
    rewrite <- map_dynamic. rewrite (map_map2 _ (fun i x => if i <? n then x else NEG_INF) (fun i => i) h h).
    - now rewrite map_id.
    - intros i x. destruct (i <? n); [reflexivity|apply h_neg_inf].
  Qed.
  Lemma h_normalize msgs lens m : map h (normalize_and_clip_msgs msgs lens m) = normalize_and_clip_msgs (map h msgs) lens m.
  Proof.
    unfold normalize_and_clip_msgs. rewrite map_length, <- h_segment_max, <- h_n0, <- map_jnp_repeat, <- h_vsub, !map_map.
    apply map_ext. intros x. now rewrite h_max, h_ofZ.
  Qed.
  Lemma h_vtof msgs ev idx : map h (pass_var_to_fac_messages msgs ev idx) = pass_var_to_fac_messages (map h msgs) (map h ev) idx.
  Proof. unfold pass_var_to_fac_messages. now rewrite h_vsub, h_gather, h_scatter_add. Qed.
  Lemma h_enum vt rows lp n : map h (pass_enum_fac_to_var_messages vt rows lp n n0) = pass_enum_fac_to_var_messages (map h vt) rows (map h lp) n n0.
  Proof.
    unfold pass_enum_fac_to_var_messages. rewrite zero_A, zero_B, h_vsub, h_scatter_max, h_gather, h_vadd, h_scatter_add, h_gather, !map_rep, h_n0, h_neg_inf, map_length.
    reflexivity.
  Qed.
  Lemma h_argmaxes data labels n :
    snd (get_maxes_and_argmaxes data labels n) = snd (get_maxes_and_argmaxes (map h data) labels n).
  Proof.
    unfold get_maxes_and_argmaxes. cbn [snd]. rewrite map_length.
    assert (E : gather n0 (scatter nmax (repeat NEG_INF n) labels (map h data)) labels = map h (gather n0 (scatter nmax (repeat NEG_INF n) labels data) labels))
      by (rewrite h_gather, h_scatter_max, map_rep, h_neg_inf; reflexivity).
    rewrite E. clear E. f_equal. f_equal. generalize (gather n0 (scatter nmax (repeat NEG_INF n) labels data) labels).
    intros ys. revert ys. induction data as [|x data IH]; intros [|y ys]; cbn [map map2]; try reflexivity. now rewrite h_eq, IH.
  Qed.
  Lemma h_logical vt pes ces o : map h (pass_logical_fac_to_var_messages vt pes ces o n0) = pass_logical_fac_to_var_messages (map h vt) pes ces o n0.
  Proof.
    unfold pass_logical_fac_to_var_messages. rewrite zero_A, zero_B, map_length.
    rewrite <- !h_gather, <- !h_vsub.
    set (ps := vsub (gather n0 vt (map (fun i => (i + o)%Z) (map snd pes))) (gather n0 vt (map snd pes))).
    set (cs := vsub (gather n0 vt (map (fun i => (i + o)%Z) ces)) (gather n0 vt ces)).
    assert (E : logical_max_product (map h ps) (map h cs) (map fst pes) (length ces)
      = (map h (fst (logical_max_product ps cs (map fst pes) (length ces))), map h (snd (logical_max_product ps cs (map fst pes) (length ces))))).
    { unfold logical_max_product. cbn [fst snd]. rewrite <- (h_argmaxes ps).
      set (first := snd (get_maxes_and_argmaxes ps _ _)). replace (scatter_set (map h ps) first (repeat NEG_INF (length first))) with (map h (scatter_set ps first (repeat NEG_INF (length first)))) by (rewrite map_scatter_set, map_rep, h_neg_inf; reflexivity). rewrite <- h_argmaxes.
      set (second := snd (get_maxes_and_argmaxes _ _ _)).
      assert (Ep : map (nmax n0) (map h ps) = map h (map (nmax n0) ps)) by (rewrite !map_map; apply map_ext; intros x; now rewrite h_max, h_n0).
      rewrite Ep. rewrite map_scatter_set.
      assert (En : forall xs, map (fun x => nmax n0 (nopp x)) (map h xs) = map h (map (fun x => nmax n0 (nopp x)) xs))
        by (intros xs; rewrite !map_map; apply map_ext; intros x; now rewrite h_max, h_n0, h_opp).
      assert (Em : forall xs, map (nmin n0) (map h xs) = map h (map (nmin n0) xs))
        by (intros xs; rewrite !map_map; apply map_ext; intros x; now rewrite h_min, h_n0).
      assert (Es : forall xs, scatter nadd (repeat n0 (length ces)) (map fst pes) (map h xs) = map h (scatter nadd (repeat n0 (length ces)) (map fst pes) xs))
        by (intros xs; now rewrite h_scatter_add, map_rep, h_n0).
      rewrite Es, <- !h_gather, !En, !Em, <- !h_vadd, <- !h_vsub.
      assert (E2 : forall xs ys, map2 nmin (map h xs) (map h ys) = map h (map2 nmin xs ys)) by (intros; symmetry; apply map_map2; exact h_min).
      now rewrite !E2. }
    rewrite E. cbn [fst snd]. set (pc := logical_max_product ps cs (map fst pes) (length ces)). clearbody pc.
    rewrite !map_scatter_set, map_rep, h_n0. f_equal. f_equal. f_equal. rewrite <- h_gather.
    generalize (gather n0 (fst pc) (map Z.of_nat (starts (bincount (map fst pes) (length ces))))). intros ys.
    clear E. generalize (bincount (map fst pes) (length ces)). intros ns. clearbody cs. revert cs ys.
    induction ns as [|n ns IH]; intros [|x cs] [|y ys]; cbn [map2 combine map]; try reflexivity. rewrite IH. cbn [fst snd]. now destruct (n =? 1).
  Qed.

  (** Two states with the same wiring and ranges. *)
  Definition same_layout (st : fg_state A) (st' : fg_state B) : Prop :=
    st_wiring st = st_wiring st' /\ st_msgs_range st = st_msgs_range st' /\ st_pots_range st = st_pots_range st'.
  Lemma h_ftov st st' lp vt : same_layout st st' ->
    map h (pass_fac_to_var_messages st n0 lp vt) = pass_fac_to_var_messages st' n0 (map h lp) (map h vt).
  Proof.
    intros [E1 [E2 E3]]. unfold pass_fac_to_var_messages. rewrite E1, E2, E3, !map_blit, h_enum, !h_logical, !map_slice, map_rep, h_n0, map_length. reflexivity.
  Qed.
  Definition map_arrays (a : bp_arrays A) : bp_arrays B :=
    {| ba_log_potentials := map h (ba_log_potentials a); ba_ftov_msgs := map h (ba_ftov_msgs a); ba_evidence := map h (ba_evidence a) |}.
  Definition same_ctx (c : bp_ctx A) (c' : bp_ctx B) : Prop :=
    same_layout (bs_fg_state (bc_state c)) (bs_fg_state (bc_state c')) /\ bc_temperature c = n0 /\ bc_temperature c' = n0 /\
    bc_edges_num_states c = bc_edges_num_states c' /\ bc_max_msg_size c = bc_max_msg_size c' /\
    bc_var_states_for_edges c = bc_var_states_for_edges c'.
  Lemma h_run c c' a n d : same_ctx c c' -> map_arrays (run_bp c a n d) = run_bp c' (map_arrays a) n (h d).
  Proof.
    intros [Hl [T1 [T2 [E1 [E2 E3]]]]]. unfold run_bp, map_arrays. cbn [ba_log_potentials ba_ftov_msgs ba_evidence]. f_equal.
    rewrite <- E1, <- E2, <- h_normalize. generalize (normalize_and_clip_msgs (ba_ftov_msgs a) (bc_edges_num_states c) (bc_max_msg_size c)). intros m.
    induction n as [|n IH]; [reflexivity|]. change (Nat.iter (S n) ?f ?x) with (f (Nat.iter n f x)). rewrite <- IH.
    set (x := Nat.iter n _ m). unfold bp_step. rewrite T1, T2, h_normalize, <- E1, <- E2, <- E3. f_equal.
    rewrite h_vadd, <- h_vtof, <- (h_ftov _ _ _ _ Hl), <- h_vsub. f_equal. rewrite !map_map. apply map_ext. intros y.
    rewrite h_mul, h_sub. unfold n1. now rewrite h_ofZ.
  Qed.
End Hom.

Lemma Q2R_ofZ z : Q2R (nofZ z) = nofZ z.
Proof. cbn. unfold Q2R. cbn. lra. Qed.
Lemma Q2R_add x y : Q2R (nadd x y) = nadd (Q2R x) (Q2R y).
Proof. etransitivity; [apply Qeq_eqR, Qred_correct|]. apply Q2R_plus. Qed.
Lemma Q2R_sub x y : Q2R (nsub x y) = nsub (Q2R x) (Q2R y).
Proof. etransitivity; [apply Qeq_eqR, Qred_correct|]. apply Q2R_minus. Qed.
Lemma Q2R_mul x y : Q2R (nmul x y) = nmul (Q2R x) (Q2R y).
Proof. etransitivity; [apply Qeq_eqR, Qred_correct|]. apply Q2R_mult. Qed.
Lemma Q2R_lt x y : nltb (Q2R x) (Q2R y) = nltb x y.
Proof.
  cbn. destruct (Rlt_dec (Q2R x) (Q2R y)) as [L|L]; symmetry.
  - apply Rlt_Qlt in L. apply negb_true_iff. destruct (Qle_bool y x) eqn:E; [|reflexivity]. apply Qle_bool_iff in E. exfalso. now apply (Qlt_not_le x y).
  - apply negb_false_iff, Qle_bool_iff. apply Rle_Qle. lra.
Qed.
Lemma Q2R_eq x y : neqb (Q2R x) (Q2R y) = neqb x y.
Proof.
  cbn. destruct (Req_EM_T (Q2R x) (Q2R y)) as [L|L]; symmetry.
  - apply Qeq_bool_iff. now apply eqR_Qeq.
  - destruct (Qeq_bool x y) eqn:E; [|reflexivity]. apply Qeq_bool_iff in E. exfalso. apply L. now apply Qeq_eqR.
Qed.
Lemma zero_R : neqb (n0 : R) n0 = true.
Proof. cbn. destruct (Req_EM_T 0 0); [reflexivity|contradiction]. Qed.
(** Running the model over the rationals. *)
Lemma run_Q (c : bp_ctx Q) (c' : bp_ctx R) a n d : same_ctx c c' ->
  map_arrays Q2R (run_bp c a n d) = run_bp c' (map_arrays Q2R a) n (Q2R d).
Proof. apply h_run; auto using Q2R_ofZ, Q2R_add, Q2R_sub, Q2R_mul, Q2R_lt, Q2R_eq, zero_R. Qed.
Lemma ftov_Q (st : fg_state Q) (st' : fg_state R) lp vt : same_layout st st' ->
  map Q2R (pass_fac_to_var_messages st n0 lp vt) = pass_fac_to_var_messages st' n0 (map Q2R lp) (map Q2R vt).
Proof. apply h_ftov; auto using Q2R_ofZ, Q2R_add, Q2R_sub, Q2R_mul, Q2R_lt, Q2R_eq, zero_R. Qed.
Lemma vtof_Q msgs ev idx :
  map Q2R (pass_var_to_fac_messages msgs ev idx) = pass_var_to_fac_messages (map Q2R msgs) (map Q2R ev) idx.
Proof. apply h_vtof; auto using Q2R_ofZ, Q2R_add, Q2R_sub, Q2R_mul, Q2R_lt, Q2R_eq, zero_R. Qed.
