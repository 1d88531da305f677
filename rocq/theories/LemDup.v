(** * Groups that contain two factors on the same variables. *)
From Verif Require Import Py Lists Factor FGroup SpecFactor SpecDup LemFactor.
From Coq Require Import Lia Sorting.Sorted.
Local Open Scope nat_scope.

Section DictOf.
  Context {K V : Type} (eqb : K -> K -> bool).
  Hypothesis eqb_refl : forall k, eqb k k = true.
  Hypothesis eqb_sym : forall k k', eqb k k' = eqb k' k.
  Hypothesis eqb_trans : forall a b c, eqb a b = true -> eqb b c = true -> eqb a c = true.

  Lemma eqb_cong a b c : eqb a b = true -> eqb a c = eqb b c.
  Proof.
    intros H. destruct (eqb b c) eqn:E; [now apply (eqb_trans a b c)|]. destruct (eqb a c) eqn:F; [|reflexivity].
    rewrite eqb_sym in H. rewrite (eqb_trans b a c H F) in E. discriminate.
  Qed.
  Lemma dset_old k (v : V) d : dget eqb k d <> None ->
    map fst (dset eqb k v d) = map fst d.
  Proof.
    induction d as [|[k' w] d IH]; cbn [dget dset]; [congruence|]. destruct (eqb k k'); [reflexivity|].
    intros H. cbn [map fst]. now rewrite IH.
  Qed.
  Lemma dset_fresh k (v : V) d : dget eqb k d = None -> dset eqb k v d = d ++ [(k, v)].
  Proof.
    induction d as [|[k' w] d IH]; cbn [dget dset]; [reflexivity|]. destruct (eqb k k'); [discriminate|].
    intros H. cbn [app]. now rewrite IH.
  Qed.
  Lemma dget_dset_any k (v : V) d q : dget eqb q (dset eqb k v d) = if eqb q k then Some v else dget eqb q d.
  Proof.
    induction d as [|[k' w] d IH]; cbn [dget dset]; [reflexivity|]. destruct (eqb k k') eqn:E; cbn [dget].
    - rewrite (eqb_sym q k), (eqb_sym q k'), (eqb_cong k k' q E). now destruct (eqb k' q).
    - rewrite IH. destruct (eqb q k') eqn:F; [|reflexivity]. destruct (eqb q k) eqn:G; [|reflexivity].
      rewrite eqb_sym in G. rewrite (eqb_trans k q k' G F) in E. discriminate.
  Qed.
  Lemma dict_of_snoc items k (v : V) : dict_of eqb (items ++ [(k, v)]) = dset eqb k v (dict_of eqb items).
  Proof. unfold dict_of, dupdate. now rewrite fold_left_app. Qed.
  (** Looking up a key finds the last item with that key. *)
  Lemma dget_dict_of items q : dget eqb q (dict_of eqb items) = dget eqb q (rev items) :> option V.
  Proof.
    induction items as [|[k v] items IH] using rev_ind; [reflexivity|].
    rewrite dict_of_snoc, rev_app_distr. cbn [rev app dget]. now rewrite dget_dset_any, IH.
  Qed.
  (** The keys are the first occurrences. *)
  Definition firsts (ks : list K) (idx : list nat) : Prop :=
    StronglySorted lt idx /\
    forall i, In i idx <-> exists k, nth_error ks i = Some k /\ forall j k', j < i -> nth_error ks j = Some k' -> eqb k' k = false.
  Lemma dict_of_keys (items : list (K * V)) : exists idx, firsts (map fst items) idx /\
    map Some (map fst (dict_of eqb items)) = map (nth_error (map fst items)) idx.
  Proof.
    induction items as [|[k v] items IH] using rev_ind.
    - exists []. split; [|reflexivity]. split; [constructor|]. intros i. split; [intros []|]. intros [k [H _]]. destruct i; discriminate.
    - destruct IH as [idx [[Hs Hi] He]]. rewrite dict_of_snoc, map_app. cbn [map fst].
      set (ks := map fst items) in *. set (n := length ks).
      assert (Hlt : forall i, In i idx -> i < n).
      { intros i H. apply Hi in H. destruct H as [k' [H _]]. apply nth_error_Some. congruence. }
      assert (Hfirst : forall i, i < n -> nth_error (ks ++ [k]) i = nth_error ks i) by (intros i H; now apply nth_error_app1).
      assert (Hmap : map (nth_error (ks ++ [k])) idx = map (nth_error ks) idx).
      { apply map_ext_in. intros i H. apply Hfirst. now apply Hlt. }
      assert (Hn : nth_error (ks ++ [k]) n = Some k) by (rewrite nth_error_app2 by (unfold n; lia); unfold n; now rewrite Nat.sub_diag).
      destruct (dget eqb k (dict_of eqb items)) as [w|] eqn:E.
      + exists idx. split; [|rewrite dset_old by congruence; now rewrite He, Hmap]. split; [exact Hs|]. intros i. rewrite Hi. split.
        * intros [k' [H1 H2]]. assert (i < n) by (apply nth_error_Some; fold ks; congruence). exists k'. split; [now rewrite Hfirst|].
          intros j k'' Hj Hk. rewrite Hfirst in Hk by lia. now apply (H2 j).
        * intros [k' [H1 H2]]. assert (Hin : i < length (ks ++ [k])) by (apply nth_error_Some; congruence). rewrite app_length in Hin. cbn in Hin. fold n in Hin.
          assert (Hne : i <> n).
          { intros ->. rewrite Hn in H1. injection H1 as <-. rewrite dget_dict_of in E. apply dget_In in E. destruct E as [k0 [H3 H4]].
            apply in_rev in H3. apply In_nth_error in H3. destruct H3 as [j Hj].
            assert (Hj2 : nth_error ks j = Some k0) by (unfold ks; now rewrite nth_error_map, Hj).
            assert (j < n) by (apply nth_error_Some; fold ks; congruence). specialize (H2 j k0 H ltac:(now rewrite Hfirst)). rewrite eqb_sym in H2. congruence. }
          assert (i < n) by lia. rewrite Hfirst in H1 by assumption. exists k'. split; [exact H1|]. intros j k'' Hj Hk. apply (H2 j); [exact Hj|rewrite Hfirst by lia; exact Hk].
      + exists (idx ++ [n]). split; [|rewrite dset_fresh by exact E; rewrite !map_app, He; cbn [map]; now rewrite Hmap, Hn]. split.
        * clear - Hs Hlt. induction Hs as [|i idx Hs IH Hf]; [repeat constructor|]. cbn [app]. constructor; [apply IH; intros j Hj; apply Hlt; now right|].
          apply Forall_app. split; [exact Hf|]. constructor; [apply Hlt; now left|constructor].
        * intros i. rewrite in_app_iff, Hi. split.
          -- intros [[k' [H1 H2]]|[<-|[]]].
             ++ assert (i < n) by (apply nth_error_Some; fold ks; congruence). exists k'. split; [now rewrite Hfirst|].
                intros j k'' Hj Hk. rewrite Hfirst in Hk by lia. now apply (H2 j).
             ++ exists k. split; [exact Hn|]. intros j k' Hj Hk. rewrite Hfirst in Hk by exact Hj.
                rewrite dget_dict_of in E. rewrite dget_None in E. rewrite eqb_sym. unfold ks in Hk. rewrite nth_error_map in Hk. destruct (nth_error items j) as [[a b]|] eqn:F; [|discriminate].
                injection Hk as <-. apply (E a b). rewrite <- in_rev. now apply nth_error_In in F.
          -- intros [k' [H1 H2]]. assert (Hin : i < length (ks ++ [k])) by (apply nth_error_Some; congruence). rewrite app_length in Hin. cbn in Hin. fold n in Hin.
             destruct (Nat.eq_dec i n) as [->|Hne]; [right; now left|]. left. assert (i < n) by lia. rewrite Hfirst in H1 by assumption. exists k'. split; [exact H1|].
             intros j k'' Hj Hk. apply (H2 j); [exact Hj|rewrite Hfirst by lia; exact Hk].
  Qed.
  Lemma dget_app_none k (a b : list (K * V)) : dget eqb k a = None -> dget eqb k (a ++ b) = dget eqb k b.
  Proof. induction a as [|[k' w] a IH]; [reflexivity|]. cbn [app dget]. destruct (eqb k k'); [discriminate|apply IH]. Qed.
  (** The last item with an equal key, by index. *)
  Lemma dget_rev_last (items : list (K * V)) q i v k : nth_error items i = Some (k, v) -> eqb q k = true ->
    (forall j k' v', i < j -> nth_error items j = Some (k', v') -> eqb q k' = false) -> dget eqb q (rev items) = Some v.
  Proof.
    intros Hi Hq Hl. destruct (nth_error_split items i Hi) as [a [b [E Hlen]]]. subst items i.
    rewrite rev_app_distr. cbn [rev]. rewrite <- app_assoc. rewrite dget_app_none.
    - cbn [app dget]. now rewrite Hq.
    - apply dget_None. intros k' v' H. rewrite <- in_rev in H. apply In_nth_error in H. destruct H as [j Hj].
      apply (Hl (length a + S j) k' v'); [lia|]. rewrite nth_error_app2 by lia. replace (length a + S j - length a) with (S j) by lia. exact Hj.
  Qed.
  Lemma dget_rev_inv (items : list (K * V)) q v : dget eqb q (rev items) = Some v ->
    exists i k, nth_error items i = Some (k, v) /\ eqb q k = true /\ forall j k' v', i < j -> nth_error items j = Some (k', v') -> eqb q k' = false.
  Proof.
    induction items as [|[k w] items IH] using rev_ind; [discriminate|]. rewrite rev_app_distr. cbn [rev app dget]. destruct (eqb q k) eqn:E.
    - intros H. injection H as ->. exists (length items), k. split; [rewrite nth_error_app2, Nat.sub_diag by lia; reflexivity|]. split; [exact E|].
      intros j k' v' Hj Hn. assert (j < length (items ++ [(k, v)])) by (apply nth_error_Some; congruence). rewrite app_length in H. cbn in H. lia.
    - intros H. destruct (IH H) as [i [k0 [H1 [H2 H3]]]]. exists i, k0. assert (i < length items) by (apply nth_error_Some; congruence).
      split; [now rewrite nth_error_app1|]. split; [exact H2|]. intros j k' v' Hj Hn. destruct (Nat.lt_ge_cases j (length items)) as [Hlt|Hge].
      + rewrite nth_error_app1 in Hn by exact Hlt. now apply (H3 j k' v').
      + assert (j < length (items ++ [(k, w)])) by (apply nth_error_Some; congruence). rewrite app_length in H4. cbn in H4. assert (j = length items) by lia. subst j.
        rewrite nth_error_app2, Nat.sub_diag in Hn by lia. injection Hn as <- <-. exact E.
  Qed.
  Lemma dget_nth (d : list (K * V)) n k v : nth_error d n = Some (k, v) -> eqb k k = true ->
    (forall m k' v', m < n -> nth_error d m = Some (k', v') -> eqb k k' = false) -> dget eqb k d = Some v.
  Proof.
    revert n. induction d as [|[k0 v0] d IH]; intros [|n] H Hr Hl; try discriminate; cbn [dget].
    - injection H as -> ->. now rewrite Hr.
    - rewrite (Hl 0 k0 v0 ltac:(lia) eq_refl). apply (IH n H Hr). intros m k' v' Hm Hn. apply (Hl (S m) k' v'); [lia|exact Hn].
  Qed.
End DictOf.
Lemma StronglySorted_nth l i j a b : StronglySorted lt l -> nth_error l i = Some a -> nth_error l j = Some b -> i < j -> a < b.
Proof.
  intros H. revert i j. induction H as [|x l H IH Hf]; intros i j Hi Hj Hlt; [destruct i; discriminate|].
  destruct j as [|j]; [lia|]. destruct i as [|i]; cbn in Hi, Hj.
  - injection Hi as <-. rewrite Forall_forall in Hf. apply Hf. now apply nth_error_In in Hj.
  - apply (IH i j Hi Hj). lia.
Qed.

Lemma set_eqb_refl xs : set_eqb xs xs = true.
Proof. apply set_eqb_spec. intros x. tauto. Qed.
Lemma set_eqb_trans a b c : set_eqb a b = true -> set_eqb b c = true -> set_eqb a c = true.
Proof. rewrite !set_eqb_spec. unfold same_set. intros H1 H2 x. now rewrite H1. Qed.

Lemma variables_to_factors_any {A} (g : fgroup A) : valid_group g ->
  exists fs, fg_variables_to_factors g = Ok (dict_of set_eqb (combine (fg_vars g) fs)) /\ length fs = length (fg_vars g) /\
    forall i f, nth_error fs i = Some f -> is_factor g i f.
Proof.
  intros Hv. unfold fg_variables_to_factors.
  destruct (mapM_seq_combine (fg_make_factor g) (fun i vs f => is_factor g i f) (fg_vars g) 0) as [fs [E [Hl HP]]].
  { intros i vs Hi. destruct (fg_make_factor_valid g i vs Hv Hi) as [f [Hf [His _]]]. exists f. auto. }
  rewrite E. cbn [bind]. exists fs. split; [reflexivity|split; [exact Hl|]].
  intros i f Hf. assert (Hi : i < length (fg_vars g)) by (rewrite <- Hl; apply nth_error_Some; congruence).
  destruct (nth_error (fg_vars g) i) as [vs|] eqn:Evs; [|apply nth_error_None in Evs; lia].
  apply (HP i vs f Evs Hf).
Qed.
Lemma nth_error_combine {X Y} (xs : list X) (ys : list Y) i x y :
  nth_error (combine xs ys) i = Some (x, y) <-> nth_error xs i = Some x /\ nth_error ys i = Some y.
Proof.
  revert ys i. induction xs as [|a xs IH]; intros ys i.
  - cbn. destruct i; (split; [discriminate|intros [H _]; discriminate]).
  - destruct ys as [|b ys]; [cbn; destruct i; (split; [discriminate|intros [_ H]; discriminate])|]. destruct i as [|i]; cbn [combine nth_error].
    + split; [intros H; injection H as <- <-; auto|intros [H1 H2]; congruence].
    + apply IH.
Qed.
Lemma map_fst_combine_len {X Y} (xs : list X) (ys : list Y) : length ys = length xs -> map fst (combine xs ys) = xs.
Proof. revert ys. induction xs as [|a xs IH]; intros [|b ys] H; cbn in *; try congruence. rewrite IH by congruence. reflexivity. Qed.

Lemma C15_duplicates_lemma {A} (g : fgroup A) : valid_group g ->
  (forall q i vs, last_of_set (fg_vars g) i -> nth_error (fg_vars g) i = Some vs -> same_set q vs ->
     exists f, fg_getitem g q = Ok f /\ is_factor g i f) /\
  (forall q, (forall vs, In vs (fg_vars g) -> ~ same_set q vs) -> fg_getitem g q = Raise ValueError) /\
  exists fs idx, fg_factors g = Ok fs /\ StronglySorted lt idx /\ (forall i, In i idx <-> first_of_set (fg_vars g) i) /\
    length fs = length idx /\
    forall k i f, nth_error idx k = Some i -> nth_error fs k = Some f ->
      exists j vs ws, nth_error (fg_vars g) i = Some vs /\ nth_error (fg_vars g) j = Some ws /\ same_set vs ws /\
        last_of_set (fg_vars g) j /\ is_factor g j f.
Proof.
  intros Hv. destruct (variables_to_factors_any g Hv) as [fs [E [Hl HP]]].
  assert (HD := fun q => dget_dict_of (V:=factor A) set_eqb set_eqb_sym set_eqb_trans (combine (fg_vars g) fs) q).
  split; [|split].
  - intros q i vs [vs' [H1 H2]] H3 Hq. rewrite H3 in H1. injection H1 as <-.
    destruct (nth_error fs i) as [f|] eqn:Ef; [|apply nth_error_None in Ef; rewrite Hl in Ef; apply nth_error_None in Ef; congruence].
    exists f. split; [|now apply HP]. unfold fg_getitem. rewrite E. cbn [bind]. rewrite HD.
    rewrite (dget_rev_last set_eqb (combine (fg_vars g) fs) q i f vs); [reflexivity|now apply nth_error_combine|now apply set_eqb_spec|].
    intros j ws f' Hj Hn. apply nth_error_combine in Hn. destruct Hn as [Hn _]. apply set_eqb_false. intros Hs. apply (H2 j ws Hj Hn).
    intros x. rewrite <- (Hs x). apply Hq.
  - intros q Hq. unfold fg_getitem. rewrite E. cbn [bind]. rewrite HD. destruct (dget set_eqb q (rev _)) as [f|] eqn:F; [|reflexivity].
    apply dget_rev_inv in F. destruct F as [i [k [H1 [H2 _]]]]. apply nth_error_combine in H1. destruct H1 as [H1 _]. apply set_eqb_spec in H2.
    exfalso. apply (Hq k); [now apply nth_error_In in H1|exact H2].
  - destruct (dict_of_keys (V:=factor A) set_eqb set_eqb_sym set_eqb_trans (combine (fg_vars g) fs)) as [idx [[Hs Hi] Hk]].
    rewrite (map_fst_combine_len _ _ Hl) in Hi, Hk.
    exists (map snd (dict_of set_eqb (combine (fg_vars g) fs))), idx. split; [unfold fg_factors; now rewrite E|]. split; [exact Hs|].
    split; [|split].
    + intros i. rewrite Hi. split; intros [vs [H1 H2]]; exists vs; (split; [exact H1|]); intros j ws Hj Hn; specialize (H2 j ws Hj Hn); now apply set_eqb_false.
    + rewrite map_length. apply (f_equal (@length _)) in Hk. now rewrite !map_length in Hk.
    + intros k i f Hk1 Hf. rewrite nth_error_map in Hf. destruct (nth_error (dict_of set_eqb (combine (fg_vars g) fs)) k) as [[key v]|] eqn:Ed; [|discriminate].
      injection Hf as <-. cbn [snd].
      assert (Hkey : nth_error (fg_vars g) i = Some key).
      { apply (f_equal (fun l => nth_error l k)) in Hk. rewrite !nth_error_map, Ed, Hk1 in Hk. cbn in Hk. congruence. }
      assert (Hget : dget set_eqb key (dict_of set_eqb (combine (fg_vars g) fs)) = Some v).
      { apply (dget_nth set_eqb _ k key v Ed (set_eqb_refl key)). intros k1 key1 v1 Hlt Ed1.
        assert (Hk2 := f_equal (fun l => nth_error l k1) Hk). cbn beta in Hk2. rewrite !nth_error_map, Ed1 in Hk2. destruct (nth_error idx k1) as [i1|] eqn:Ei1; [|discriminate].
        cbn in Hk2. injection Hk2 as Hk2. symmetry in Hk2.
        assert (Hii : i1 < i) by (apply (StronglySorted_nth idx k1 k); assumption).
        assert (Hin : In i idx) by (now apply nth_error_In in Hk1). apply Hi in Hin. destruct Hin as [k0 [H1 H2]]. rewrite Hkey in H1. injection H1 as <-.
        rewrite set_eqb_sym. now apply (H2 i1). }
      rewrite HD in Hget. apply dget_rev_inv in Hget. destruct Hget as [j [ws [H1 [H2 H3]]]]. apply nth_error_combine in H1. destruct H1 as [H1 H1'].
      exists j, key, ws. split; [exact Hkey|]. split; [exact H1|]. split; [now apply set_eqb_spec|]. split; [|now apply HP].
      exists ws. split; [exact H1|]. intros j' ws' Hj Hn Hsame.
      destruct (nth_error fs j') as [f'|] eqn:Ef; [|apply nth_error_None in Ef; rewrite Hl in Ef; apply nth_error_None in Ef; congruence].
      specialize (H3 j' ws' f' Hj). rewrite nth_error_combine in H3. specialize (H3 (conj Hn Ef)). apply set_eqb_false in H3. apply H3.
      apply set_eqb_spec in H2. intros x. rewrite (H2 x). symmetry. apply Hsame.
Qed.
