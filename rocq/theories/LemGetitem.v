(** * Proofs about all results of indexing an NDVarArray (C03). *)
From Verif Require Import NumPy Lists VGroup SpecVGroup LemVGroup.
From Coq Require Import Lia ZArith Sorting.Sorted.
Local Open Scope nat_scope.

Lemma item_raise d it e : item_positions d it = Raise e <-> item_bad d it = Some e.
Proof.
  destruct it as [i|[start stop step]].
  - rewrite item_positions_int. cbn [item_bad]. destruct (_ && _); split; intros H; try discriminate; congruence.
  - cbn [item_positions item_bad sl_step]. unfold slice_positions. cbn [sl_step]. destruct step as [[|k|k]|]; cbn [Z.eqb]; split; intros H; try discriminate; congruence.
Qed.
Lemma select_raise shp items e : length items <= length shp ->
  (select shp items = Raise e <-> exists k, k < length items /\ item_bad (nth k shp 0) (nth k items (IInt 0)) = Some e /\
     forall j, j < k -> item_bad (nth j shp 0) (nth j items (IInt 0)) = None).
Proof.
  revert items. induction shp as [|d shp IH]; intros [|it items] Hl; cbn [length] in Hl; cbn [select].
  - split; [discriminate|]. intros [k [Hk _]]. cbn in Hk. lia.
  - lia.
  - destruct (proj2 (select_ok_iff shp [])) as [ps ->]; [split; [cbn; lia|cbn; intros; lia]|]. cbn [bind]. split; [discriminate|]. intros [k [Hk _]]. cbn in Hk. lia.
  - specialize (IH items ltac:(lia)). destruct (item_positions d it) as [pos|e'] eqn:E; cbn [bind].
    + assert (E0 : item_bad d it = None) by (apply item_positions_ok; eauto).
      destruct (select shp items) as [inner|e'] eqn:Es; cbn [bind].
      * split; [discriminate|]. intros [[|k] [Hk [Hb Hj]]]; [cbn in Hb; congruence|]. cbn in Hk.
        assert (X : Ok inner = Raise e); [|discriminate]. apply IH. exists k. split; [lia|]. split; [exact Hb|]. intros j Hlt. apply (Hj (S j)). lia.
      * rewrite IH. split.
        -- intros [k [Hk [Hb Hj]]]. exists (S k). split; [cbn; lia|]. split; [exact Hb|]. intros [|j] Hlt; [exact E0|]. apply Hj. lia.
        -- intros [[|k] [Hk [Hb Hj]]]; [cbn in Hb; congruence|]. cbn in Hk. exists k. split; [lia|]. split; [exact Hb|]. intros j Hlt. apply (Hj (S j)). lia.
    + apply item_raise in E. split.
      * intros [= <-]. exists 0. split; [cbn; lia|]. split; [exact E|]. intros j Hj. lia.
      * intros [[|k] [Hk [Hb Hj]]]; [cbn in Hb; congruence|]. specialize (Hj 0 ltac:(lia)). cbn in Hj. congruence.
Qed.
Lemma C03_errors_lemma id ns shp v items : wf_ns ns -> NDVarArray id ns shp = Ok v -> forall e,
  va_getitem v items = Raise e <->
  (e = IndexError /\ (items = [] \/ length shp < length items)) \/
  (length items <= length shp /\ exists k, k < length items /\ item_bad (nth k shp 0) (nth k items (IInt 0)) = Some e /\
     forall j, j < k -> item_bad (nth j shp 0) (nth j items (IInt 0)) = None).
Proof.
  intros Hwf H e. destruct (NDVarArray_inv _ _ _ _ Hwf H) as [_ [Hs _]]. rewrite <- Hs. unfold va_getitem.
  destruct items as [|it items].
  - split; [intros [= <-]; left; auto|]. intros [[-> _]|[_ [k [Hk _]]]]; [reflexivity|cbn in Hk; lia].
  - destruct (Nat.ltb_spec (length (va_shape v)) (length (it :: items))) as [L|L].
    + split; [intros [= <-]; left; auto|]. intros [[-> _]|[L2 _]]; [reflexivity|lia].
    + pose proof (select_raise (va_shape v) (it :: items) e L) as S. destruct (select (va_shape v) (it :: items)) as [ps|e'] eqn:Es; cbn [bind].
      * split.
        -- destruct it; [destruct (full_int_index _ _)|]; discriminate.
        -- intros [[_ [X|X]]|[_ X]]; [discriminate|lia|]. apply S in X. discriminate.
      * split.
        -- intros X. right. split; [exact L|]. apply S. congruence.
        -- intros [[_ [X|X]]|[_ X]]; [discriminate|lia|]. apply S in X. congruence.
Qed.
Lemma C03_arrays_lemma id ns shp v i items : wf_ns ns -> NDVarArray id ns shp = Ok v ->
  (length (IInt i :: items) < length shp \/ exists s, In (ISlice s) items) ->
  forall r, va_getitem v (IInt i :: items) = Ok r -> exists ps,
    r = GArrays (map (fun p => fst (nth p (va_variables v) (0%Z, 0))) ps) (map (fun p => snd (nth p (va_variables v) (0%Z, 0))) ps) /\
    (forall p, In p ps <-> exists idx, items_select shp (IInt i :: items) idx /\ ravel shp idx = p) /\
    NoDup ps /\ (Forall item_step_pos items -> StronglySorted lt ps).
Proof.
  intros Hwf H Hnf r. destruct (NDVarArray_inv _ _ _ _ Hwf H) as [Hid [Hs [Hln _]]]. rewrite <- Hs in *. unfold va_getitem.
  destruct (_ <? _); [discriminate|]. destruct (select (va_shape v) (IInt i :: items)) as [ps|e] eqn:Es; cbn [bind]; [|discriminate].
  assert (F : full_int_index (va_shape v) (IInt i :: items) = false).
  { unfold full_int_index. apply andb_false_iff. destruct Hnf as [L|[s Hin]].
    - right. apply Nat.eqb_neq. cbn [length] in *. lia.
    - left. apply not_true_iff_false. intros A. rewrite forallb_forall in A. specialize (A (ISlice s) (or_intror Hin)). discriminate. }
  rewrite F. intros [= <-]. destruct (select_spec _ _ _ Es) as [H1 [H2 [H3 H4]]]. exists ps. split; [|split; [exact H1|split; [exact H2|]]].
  - f_equal; apply map_ext_in; intros p Hp; apply H4 in Hp; rewrite ?nth_va_hashes, nth_va_variables by assumption; reflexivity.
  - intros Hf. apply H3. constructor; [exact I|exact Hf].
Qed.
