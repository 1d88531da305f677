(** * Proofs about all results of unflatten (C04, C05). *)
From Verif Require Import NumPy Lists VGroup SpecVGroup LemVGroup.
From Coq Require Import Lia.
Local Open Scope nat_scope.

Lemma C04_unflatten_lemma {A} (ninf : A) v (f : ndarray A) : constructed (VA v) -> wf_arr f ->
  let ns := va_num_states v in
  let m := nat_max ns in
  (length (shape f) = 1 -> length (data f) = prod (va_shape v) -> va_unflatten ninf v f = Ok (mkArr (va_shape v) (data f))) /\
  (length (shape f) = 1 -> length (data f) <> prod (va_shape v) -> length (data f) = list_sum ns ->
     exists d, va_unflatten ninf v f = Ok d /\ shape d = va_shape v ++ [m] /\ length (data d) = prod (va_shape v) * m /\
     forall i j, i < prod (va_shape v) -> j < m ->
       nth (i * m + j) (data d) ninf = if j <? nth i ns 0 then nth (list_sum (firstn i ns) + j) (data f) ninf else ninf) /\
  (length (shape f) <> 1 \/ length (data f) <> prod (va_shape v) /\ length (data f) <> list_sum ns -> va_unflatten ninf v f = Raise ValueError).
Proof.
  intros Hc Hf ns m. pose proof (constructed_wf _ Hc) as Hl. cbn [wf_group] in Hl. split; [|split].
  - intros H1 H2. unfold va_unflatten. now rewrite H1, H2, !Nat.eqb_refl.
  - intros H1 H2 H3. assert (Hne : ns <> []) by (intros E; apply H2; rewrite H3; fold ns in Hl; rewrite E in *; exact Hl).
    set (d := mkArr (va_shape v ++ [m]) (mask_set (state_mask m ns) (repeat ninf (prod (va_shape v) * m)) (data f))).
    assert (E : va_unflatten ninf v f = Ok d).
    { unfold va_unflatten. rewrite H1. cbn [Nat.eqb negb]. destruct (Nat.eqb_spec (length (data f)) (prod (va_shape v))); [contradiction|].
      fold ns. rewrite H3, Nat.eqb_refl. unfold d, m. destruct ns; [contradiction|reflexivity]. }
    exists d. split; [exact E|]. split; [reflexivity|]. assert (Hd : length (data d) = prod (va_shape v) * m) by (cbn; now rewrite mask_set_length, repeat_length).
    split; [exact Hd|]. assert (Ef : f = mkArr [length (data f)] (data f)).
    { destruct f as [[|k [|]] x]; try discriminate. unfold wf_arr in Hf. cbn in *. f_equal. f_equal. lia. }
    assert (Hw : wf_arr d) by (unfold wf_arr; rewrite Hd; cbn [d shape]; rewrite prod_app; cbn; lia).
    rewrite Ef in E. pose proof (C04_back ninf v (data f) d Hl E) as B.
    destruct (C04_per_state ninf v d Hl Hw Hne eq_refl ltac:(fold ns; congruence)) as [f' [d' [F1 [_ [F2 [_ [_ F3]]]]]]].
    rewrite B in F1. injection F1 as <-. rewrite E in F2. injection F2 as <-. fold ns m in F3.
    pose proof (C04_rows v d (data f) Hl Hw eq_refl B) as Rw. fold ns m in Rw.
    intros i j Hi Hj. rewrite (F3 i j Hi Hj). destruct (Nat.ltb_spec j (nth i ns 0)) as [Hlt|_]; [|reflexivity].
    set (rows := map (fun i => firstn (nth i ns 0) (skipn (i * m) (data d))) (seq 0 (prod (va_shape v)))) in Rw.
    assert (Hrow : forall k, k < prod (va_shape v) -> length (firstn (nth k ns 0) (skipn (k * m) (data d))) = nth k ns 0).
    { intros k Hk. rewrite firstn_length, skipn_length, Hd. assert (nth k ns 0 <= m) by (apply nat_max_ge, nth_In; fold ns in Hl; lia). nia. }
    assert (Elen : map (@length A) rows = ns).
    { unfold rows. rewrite map_map. apply (nth_ext _ _ 0 0); [now rewrite map_length, seq_length|]. intros k Hk. rewrite map_length, seq_length in Hk. rewrite nth_map_seq by exact Hk. now apply Hrow. }
    assert (Erow : nth i rows [] = firstn (nth i ns 0) (skipn (i * m) (data d))) by (unfold rows; now rewrite nth_map_seq by exact Hi).
    pose proof (nth_concat rows i j ninf) as N. rewrite Elen, <- Rw, Erow in N. unfold off in N. rewrite N.
    + rewrite nth_firstn by exact Hlt. now rewrite nth_skipn.
    + unfold rows. now rewrite map_length, seq_length.
    + now rewrite Hrow.
  - intros H. unfold va_unflatten. destruct (Nat.eqb_spec (length (shape f)) 1) as [E|_]; [|reflexivity]. destruct H as [H|[H1 H2]]; [contradiction|]. cbn [negb].
    destruct (Nat.eqb_spec (length (data f)) (prod (va_shape v))); [contradiction|]. fold ns. destruct (Nat.eqb_spec (length (data f)) (list_sum ns)); [contradiction|reflexivity].
Qed.

Lemma C05_unflatten_lemma {A} v (f : ndarray A) : constructed (VD v) -> wf_arr f ->
  let ns := vd_num_states v in
  (length (shape f) = 1 -> length (data f) = length (vd_names v) ->
     exists d, vd_unflatten v f = Ok d /\ map fst d = vd_names v /\
     forall i x y, nth_error (vd_names v) i = Some x -> nth_error (data f) i = Some y -> dget Z.eqb x d = Some (mkArr [1] [y])) /\
  (length (shape f) = 1 -> length (data f) <> length (vd_names v) -> length (data f) = list_sum ns ->
     exists d, vd_unflatten v f = Ok d /\ map fst d = vd_names v /\
     forall i x k, nth_error (vd_names v) i = Some x -> nth_error ns i = Some k ->
       dget Z.eqb x d = Some (mkArr [k] (firstn k (skipn (list_sum (firstn i ns)) (data f))))) /\
  (length (shape f) <> 1 \/ length (data f) <> length (vd_names v) /\ length (data f) <> list_sum ns -> vd_unflatten v f = Raise ValueError).
Proof.
  intros Hc Hf ns. destruct (vd_constructed_inv _ Hc) as [Hl Hnd]. split; [|split].
  - intros H1 H2. unfold vd_unflatten. rewrite H1, H2, !Nat.eqb_refl. cbn [negb]. eexists. split; [reflexivity|].
    rewrite (vd_unflatten_loop v false (data f) (fun _ => 1) (vd_names v) 0 []); auto. cbn [snd app]. split.
    + rewrite map_map. cbn [fst]. symmetry. apply list_ext_seq.
    + intros i x y Hx Hy. assert (Hi : i < length (vd_names v)) by (apply nth_error_Some; congruence).
      rewrite <- (nth_error_nth _ _ 0%Z Hx). cbn zeta.
      rewrite (dget_map_nodup (vd_names v) (fun i => mkArr [1] (slice (data f) (0 + off (map (fun _ => 1) (vd_names v)) i) (0 + off (map (fun _ => 1) (vd_names v)) i + 1))) 0 _); [|rewrite <- list_ext_seq; exact Hnd|lia].
      f_equal. f_equal. assert (Eo : off (map (fun _ => 1) (vd_names v)) i = i).
      { unfold off. rewrite firstn_map, (list_sum_map_one _ (fun _ => 1)) by auto. rewrite firstn_length. lia. }
      rewrite Eo. cbn [Nat.add]. unfold slice. replace (i + 1 - i) with 1 by lia. apply nth_error_split in Hy. destruct Hy as [l1 [l2 [-> <-]]].
      now rewrite skipn_app, skipn_all, Nat.sub_diag.
  - intros H1 H2 H3. unfold vd_unflatten. rewrite H1. cbn [Nat.eqb negb]. destruct (Nat.eqb_spec (length (data f)) (length (vd_names v))); [contradiction|].
    fold ns. rewrite H3, Nat.eqb_refl. eexists. split; [reflexivity|].
    set (w := fun x => match index_of x (vd_names v) with Some i => nth i (vd_num_states v) 0 | None => 0 end).
    rewrite (vd_unflatten_loop v true (data f) w (vd_names v) 0 []); auto. cbn [snd app]. split.
    + rewrite map_map. cbn [fst]. symmetry. apply list_ext_seq.
    + intros i x k Hx Hk. assert (Hi : i < length (vd_names v)) by (apply nth_error_Some; congruence).
      assert (Ew : map w (vd_names v) = ns) by (apply map_index_num_states; assumption). rewrite Ew.
      rewrite <- (nth_error_nth _ _ 0%Z Hx). cbn zeta.
      rewrite (dget_map_nodup (vd_names v) (fun i => mkArr [length (slice (data f) (0 + off ns i) (0 + off ns i + w (nth i (vd_names v) 0%Z)))] (slice (data f) (0 + off ns i) (0 + off ns i + w (nth i (vd_names v) 0%Z)))) 0 _);
        [|rewrite <- list_ext_seq; exact Hnd|lia].
      assert (Ek : w (nth i (vd_names v) 0%Z) = k) by (unfold w; rewrite (index_of_nth _ _ i Hnd Hi eq_refl); exact (nth_error_nth _ _ 0 Hk)).
      rewrite Ek. cbn [Nat.add]. f_equal. unfold slice. replace (off ns i + k - off ns i) with k by lia. f_equal. f_equal.
      rewrite firstn_length, skipn_length, H3. pose proof (off_S ns i) as HS. fold ns in Hl. rewrite Hl in HS. specialize (HS Hi). rewrite (nth_error_nth _ _ 0 Hk) in HS.
      pose proof (off_le_sum ns (S i)). lia.
  - intros H. unfold vd_unflatten. destruct (Nat.eqb_spec (length (shape f)) 1) as [E|_]; [|reflexivity]. destruct H as [H|[H1 H2]]; [contradiction|]. cbn [negb].
    destruct (Nat.eqb_spec (length (data f)) (length (vd_names v))); [contradiction|]. fold ns. destruct (Nat.eqb_spec (length (data f)) (list_sum ns)); [contradiction|reflexivity].
Qed.
Lemma C05_no_names_lemma {A} v (d : list (name * ndarray A)) : constructed (VD v) -> vd_names v = [] -> vd_flatten v d = Raise ValueError.
Proof.
  intros _ H. unfold vd_flatten. destruct (mapM (vd_check v) d) as [us|e] eqn:Hc; [|apply vd_check_raise in Hc; now subst]. now rewrite H.
Qed.
Lemma C05_wrong_kind_lemma A v w (m : list (name * ndarray A)) (a : ndarray A) :
  vg_flatten (VA v) (DMap m) = Raise AttributeError /\ vg_flatten (VD w) (DArr a) = Raise TypeError.
Proof. now split. Qed.
