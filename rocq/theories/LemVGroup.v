(** * Proofs about variable groups (C01-C05). *)
From Verif Require Import VGroup Lists SpecVGroup.
From Coq Require Import Lia ZifyBool Sorted.
Local Open Scope nat_scope.

(** ** Constructors *)
Lemma vg_hash_range id : (0 <= vg_hash id <= (2 ^ 32 - 1) * MAX_SIZE)%Z.
Proof.
  unfold vg_hash, MAX_SIZE. pose proof (Z.mod_pos_bound id (2 ^ 32) ltac:(lia)). lia.
Qed.

Lemma VarGroup_post_init_ok id : VarGroup_post_init id = Ok (vg_hash id).
Proof.
  unfold VarGroup_post_init, guard. pose proof (vg_hash_range id) as H. unfold MAX_SIZE in H.
  destruct (vg_hash id <? 2 ^ 63)%Z eqn:E; [reflexivity|]. lia.
Qed.

Lemma NDVarArray_inv id ns shp v :
  wf_ns ns -> NDVarArray id ns shp = Ok v ->
  va_id v = id /\ va_shape v = shp /\ length (va_num_states v) = prod shp /\
  (Z.of_nat (prod shp) <= MAX_SIZE)%Z.
Proof.
  intros Hwf H. unfold NDVarArray in H. rewrite VarGroup_post_init_ok in H. simpl in H.
  destruct (MAX_SIZE <? Z.of_nat (prod shp))%Z eqn:E; [discriminate|].
  destruct ns as [n|a|]; try discriminate.
  - injection H as <-. simpl. rewrite repeat_length. repeat split. lia.
  - destruct (shape_eqb (shape a) shp) eqn:Es; [|discriminate]. apply shape_eqb_eq in Es.
    injection H as <-. simpl in *. unfold wf_arr in Hwf. rewrite Hwf, Es. repeat split. lia.
Qed.

Lemma va_hashes_length v : length (va_variable_hashes v) = prod (va_shape v).
Proof. unfold va_variable_hashes. now rewrite map_length, seq_length. Qed.

Lemma nth_va_hashes v i d :
  i < prod (va_shape v) -> nth i (va_variable_hashes v) d = (vg_hash (va_id v) + Z.of_nat i)%Z.
Proof. intros H. unfold va_variable_hashes. now rewrite nth_map_seq by lia. Qed.

Lemma va_variables_length v :
  length (va_num_states v) = prod (va_shape v) -> length (va_variables v) = prod (va_shape v).
Proof. intros H. unfold va_variables in *. rewrite combine_length, va_hashes_length, H. lia. Qed.

Lemma nth_va_variables v i d :
  length (va_num_states v) = prod (va_shape v) -> i < prod (va_shape v) ->
  nth i (va_variables v) d = ((vg_hash (va_id v) + Z.of_nat i)%Z, nth i (va_num_states v) 0).
Proof.
  intros H Hi. unfold va_variables in *.
  rewrite (nth_indep _ d (0%Z, 0)) by (rewrite combine_length, va_hashes_length; lia).
  rewrite combine_nth_lt by (rewrite ?va_hashes_length; lia). now rewrite nth_va_hashes by lia.
Qed.

(** ** C01 *)
Lemma hash_disjoint id1 id2 i1 i2 :
  (id1 mod 2 ^ 32 <> id2 mod 2 ^ 32)%Z ->
  (Z.of_nat i1 < MAX_SIZE)%Z -> (Z.of_nat i2 < MAX_SIZE)%Z ->
  (vg_hash id1 + Z.of_nat i1 <> vg_hash id2 + Z.of_nat i2)%Z.
Proof.
  unfold vg_hash, MAX_SIZE. intros Hne H1 H2 Heq. apply Hne.
  remember (id1 mod 2 ^ 32)%Z as a. remember (id2 mod 2 ^ 32)%Z as b. clear - H1 H2 Heq. lia.
Qed.

Lemma C01_lemma id ns shp v :
  wf_ns ns -> NDVarArray id ns shp = Ok v ->
  length (va_variables v) = prod shp /\
  NoDup (map fst (va_variables v)) /\
  (forall x, In x (va_variables v) -> 0 <= fst x < 2 ^ 63)%Z /\
  (forall id' ns' shp' v', wf_ns ns' -> NDVarArray id' ns' shp' = Ok v' ->
     (id mod 2 ^ 32 <> id' mod 2 ^ 32)%Z ->
     forall x y, In x (va_variables v) -> In y (va_variables v') -> fst x <> fst y).
Proof.
  intros Hwf H. destruct (NDVarArray_inv _ _ _ _ Hwf H) as [Hid [Hs [Hl Hm]]].
  rewrite <- Hs in *. split; [now apply va_variables_length|].
  assert (Hnth : forall x, In x (va_variables v) -> exists i, i < prod (va_shape v) /\
            fst x = (vg_hash id + Z.of_nat i)%Z).
  { intros x Hx. apply (In_nth_iff _ _ (0%Z, 0)) in Hx. destruct Hx as [i [Hi <-]].
    rewrite va_variables_length in Hi by exact Hl. exists i. split; [exact Hi|].
    rewrite nth_va_variables by assumption. simpl. now rewrite Hid. }
  split; [|split].
  - apply (NoDup_nth _ 0%Z). intros i j Hi Hj Heq. rewrite map_length, va_variables_length in * by exact Hl.
    rewrite !(nth_map _ _ _ _ (0%Z, 0)) in Heq by (rewrite va_variables_length; assumption).
    rewrite !nth_va_variables in Heq by assumption. simpl in Heq. lia.
  - intros x Hx. destruct (Hnth x Hx) as [i [Hi ->]].
    pose proof (vg_hash_range id) as Hr. unfold MAX_SIZE in *. lia.
  - intros id' ns' shp' v' Hwf' H' Hne x y Hx Hy.
    destruct (NDVarArray_inv _ _ _ _ Hwf' H') as [Hid' [Hs' [Hl' Hm']]]. rewrite <- Hs' in *.
    destruct (Hnth x Hx) as [i [Hi ->]].
    apply (In_nth_iff _ _ (0%Z, 0)) in Hy. destruct Hy as [j [Hj <-]].
    rewrite va_variables_length in Hj by exact Hl'.
    rewrite nth_va_variables by assumption. cbn [fst]. rewrite Hid'.
    apply hash_disjoint; [exact Hne| |]; lia.
Qed.

Lemma VarDict_inv id ns names v :
  wf_ns ns -> VarDict id ns names = Ok v ->
  vd_id v = id /\ vd_names v = names /\ length (vd_num_states v) = length names.
Proof.
  intros Hwf H. unfold VarDict in H. rewrite VarGroup_post_init_ok in H. simpl in H.
  destruct ns as [n|a|]; try discriminate.
  - injection H as <-. simpl. now rewrite repeat_length.
  - destruct (shape_eqb (shape a) [length names]) eqn:Es; [|discriminate]. apply shape_eqb_eq in Es.
    injection H as <-. simpl in *. unfold wf_arr in Hwf. rewrite Hwf, Es. simpl. repeat split. lia.
Qed.

Lemma vd_hashes_length v : length (vd_variable_hashes v) = length (vd_names v).
Proof. unfold vd_variable_hashes. now rewrite map_length, seq_length. Qed.

Lemma vd_variables_length v :
  length (vd_num_states v) = length (vd_names v) -> length (vd_variables v) = length (vd_names v).
Proof. intros H. unfold vd_variables in *. rewrite combine_length, vd_hashes_length, H. lia. Qed.

Lemma nth_vd_variables v i d :
  length (vd_num_states v) = length (vd_names v) -> i < length (vd_names v) ->
  nth i (vd_variables v) d = ((vg_hash (vd_id v) + Z.of_nat i)%Z, nth i (vd_num_states v) 0).
Proof.
  intros H Hi. unfold vd_variables in *.
  rewrite (nth_indep _ d (0%Z, 0)) by (rewrite combine_length, vd_hashes_length; lia).
  rewrite combine_nth_lt by (rewrite ?vd_hashes_length; lia).
  unfold vd_variable_hashes. now rewrite nth_map_seq by lia.
Qed.

Lemma vg_variables_length g : wf_group g -> length (vg_variables g) = length (vg_num_states g).
Proof.
  destruct g as [v|v]; simpl; intros H.
  - rewrite va_variables_length; congruence.
  - rewrite vd_variables_length; congruence.
Qed.

Lemma nth_vg_variables g i d :
  wf_group g -> i < length (vg_num_states g) ->
  nth i (vg_variables g) d = ((vg_hash (vg_id g) + Z.of_nat i)%Z, nth i (vg_num_states g) 0).
Proof.
  destruct g as [v|v]; simpl; intros H Hi.
  - apply nth_va_variables; congruence.
  - apply nth_vd_variables; congruence.
Qed.

Lemma vg_variables_snd g : wf_group g -> map snd (vg_variables g) = vg_num_states g.
Proof.
  intros H. apply (nth_ext _ _ 0 0).
  - rewrite map_length. now apply vg_variables_length.
  - intros i Hi. rewrite map_length, vg_variables_length in Hi by exact H.
    rewrite (nth_map _ _ _ _ (0%Z, 0)) by (rewrite vg_variables_length; assumption).
    now rewrite nth_vg_variables by assumption.
Qed.

(** ** C02 *)
Lemma cells_prod s : cells s = prod s.
Proof. induction s; simpl; congruence. Qed.

Lemma ravel_lt s idx : in_shape s idx -> ravel s idx < prod s.
Proof.
  unfold in_shape. intros H. induction H as [|i d idx s Hi H IH]; simpl; [lia|].
  rewrite cells_prod. nia.
Qed.

Lemma in_shape_length s idx : in_shape s idx -> length idx = length s.
Proof. intros H. eapply Forall2_len; exact H. Qed.

Lemma ravel_inj s idx idx' : in_shape s idx -> in_shape s idx' -> ravel s idx = ravel s idx' -> idx = idx'.
Proof.
  intros H. revert idx'. induction H as [|i d idx s Hi H IH]; intros idx' H' Heq.
  - inversion H'. reflexivity.
  - inversion H' as [|i' d' idx2 s' Hi' H2]; subst. simpl in Heq.
    pose proof (ravel_lt _ _ H) as L1. pose proof (ravel_lt _ _ H2) as L2. rewrite cells_prod in Heq.
    assert (i = i') as -> by nia. f_equal. apply IH; [exact H2|lia].
Qed.

Lemma ravel_surj s p : p < prod s -> exists idx, in_shape s idx /\ ravel s idx = p.
Proof.
  revert p; induction s as [|d s IH]; intros p Hp; simpl in *.
  - exists []. split; [constructor|simpl; lia].
  - destruct (div_mod_lt _ _ _ Hp) as [H1 [H2 H3]].
    destruct (IH _ H2) as [idx [Hidx Hr]]. exists (p / prod s :: idx). split.
    + constructor; assumption.
    + cbn [ravel]. pose proof (cells_prod s). nia.
Qed.

Lemma item_positions_int n i :
  item_positions n (IInt i) =
  if ((- Z.of_nat n <=? i) && (i <? Z.of_nat n))%Z
  then Ok [Z.to_nat (if (i <? 0)%Z then i + Z.of_nat n else i)] else Raise IndexError.
Proof.
  unfold item_positions, norm_idx.
  destruct (i <? 0)%Z eqn:E;
  destruct ((- Z.of_nat n <=? i) && (i <? Z.of_nat n))%Z eqn:E2;
  match goal with |- (if ?c then _ else _) = _ => destruct c eqn:E3 end; try reflexivity; lia.
Qed.

Lemma select_ints_ok shp ii idx :
  Forall2 (fun ip d => denotes d (fst ip) (snd ip)) (combine ii idx) shp -> length ii = length idx ->
  select shp (map IInt ii) = Ok [ravel shp idx].
Proof.
  revert ii idx; induction shp as [|d shp IH]; intros [|i ii] [|p idx] H Hl; simpl in *; try lia;
    inversion H as [|? ? ? ? H1 H2]; subst.
  - reflexivity.
  - pose proof (item_positions_int d i) as Hip. unfold denotes in H1. simpl in H1.
    destruct ((- Z.of_nat d <=? i) && (i <? Z.of_nat d))%Z eqn:E; [|lia].
    unfold item_positions in Hip. rewrite Hip. cbn [bind].
    rewrite (IH ii idx) by (assumption || lia). simpl. change (cells shp) with (prod shp).
    replace (Z.to_nat (if (i <? 0)%Z then (i + Z.of_nat d)%Z else i)) with p by (destruct (i <? 0)%Z eqn:E0; lia).
    reflexivity.
Qed.

(** An index out of range raises IndexError (with the right number of integer indices). *)
Lemma select_ints_err shp ii :
  length ii = length shp ->
  ~ (exists idx, length idx = length ii /\
       Forall2 (fun ip d => denotes d (fst ip) (snd ip)) (combine ii idx) shp) ->
  select shp (map IInt ii) = Raise IndexError.
Proof.
  revert ii; induction shp as [|d shp IH]; intros [|i ii] Hl Hno; simpl in *; try lia.
  - exfalso. apply Hno. exists []. split; [reflexivity|constructor].
  - pose proof (item_positions_int d i) as Hip. unfold item_positions in Hip. rewrite Hip.
    destruct ((- Z.of_nat d <=? i) && (i <? Z.of_nat d))%Z eqn:E; cbn [bind]; [|reflexivity].
    rewrite IH; [reflexivity|lia|]. intros [idx [Hlen Hidx]]. apply Hno.
    exists (Z.to_nat (if (i <? 0)%Z then i + Z.of_nat d else i) :: idx). simpl. split; [lia|].
    constructor; [|exact Hidx]. unfold denotes. simpl. destruct (i <? 0)%Z eqn:E0; lia.
Qed.

Lemma denotes_in_shape shp ii idx :
  Forall2 (fun ip d => denotes d (fst ip) (snd ip)) (combine ii idx) shp -> length ii = length idx ->
  in_shape shp idx.
Proof.
  revert ii idx; induction shp as [|d shp IH]; intros [|i ii] [|p idx] H Hl; simpl in *; try lia;
    inversion H as [|? ? ? ? H1 H2]; subst; constructor.
  - destruct H1 as [H1 _]. exact H1.
  - apply (IH ii idx); [assumption|lia].
Qed.

Lemma full_int_index_map shp ii : length ii = length shp -> full_int_index shp (map IInt ii) = true.
Proof.
  intros H. unfold full_int_index. rewrite map_length, H, Nat.eqb_refl.
  rewrite andb_true_r. induction ii in shp, H |- *; simpl; [reflexivity|].
  destruct shp; [simpl in *; lia|]. apply (IHii shp). simpl in H. lia.
Qed.

Lemma C02_lemma id ns shp v ii :
  wf_ns ns -> NDVarArray id ns shp = Ok v -> ii <> [] -> length ii = length shp ->
  (forall idx, length idx = length ii ->
     Forall2 (fun ip d => denotes d (fst ip) (snd ip)) (combine ii idx) shp ->
     exists x, nth_error (va_variables v) (ravel shp idx) = Some x /\
               snd x = nth (ravel shp idx) (va_num_states v) 0 /\
               va_getitem v (map IInt ii) = Ok (GVar x)) /\
  ((forall idx, length idx = length ii ->
     ~ Forall2 (fun ip d => denotes d (fst ip) (snd ip)) (combine ii idx) shp) ->
   va_getitem v (map IInt ii) = Raise IndexError).
Proof.
  intros Hwf H Hne Hl. destruct (NDVarArray_inv _ _ _ _ Hwf H) as [Hid [Hs [Hln _]]].
  assert (Hitems : match map IInt ii with [] => true | _ => false end = false)
    by (destruct ii; [congruence|reflexivity]).
  rewrite <- Hs in *.
  assert (Hmany : (length (va_shape v) <? length (map IInt ii)) = false) by (apply Nat.ltb_ge; rewrite map_length; lia).
  split.
  - intros idx Hlen HF.
    pose proof (denotes_in_shape _ _ _ HF (eq_sym Hlen)) as Hin.
    pose proof (ravel_lt _ _ Hin) as Hlt.
    exists (nth (ravel (va_shape v) idx) (va_variables v) (0%Z, 0)). split; [|split].
    + apply nth_error_nth'. rewrite va_variables_length; assumption.
    + now rewrite nth_va_variables by assumption.
    + unfold va_getitem. rewrite Hitems, Hmany, (select_ints_ok _ _ _ HF) by lia. cbn [bind map].
      rewrite full_int_index_map by exact Hl.
      assert (Hm : match map IInt ii with ISlice _ :: _ => false | _ => true end = true)
        by (destruct ii; reflexivity).
      destruct (map IInt ii) as [|[i|s] r] eqn:Em; simpl in *; try discriminate.
      rewrite nth_va_hashes by assumption. now rewrite nth_va_variables by assumption.
  - intros Hno. unfold va_getitem. rewrite Hitems, Hmany, select_ints_err; [reflexivity|exact Hl|].
    intros [idx [H1 H2]]. exact (Hno idx H1 H2).
Qed.

(** ** C03 *)
Lemma clip_start_bound n k i : (0 <= n)%Z -> (k <> 0)%Z -> clip_start n k i = slice_bound n k i.
Proof.
  intros Hn Hk. unfold clip_start, slice_bound.
  destruct (i <? 0)%Z eqn:E1, (k <? 0)%Z eqn:E2, (0 <? k)%Z eqn:E3; try lia.
  - destruct (i + n <? 0)%Z eqn:E4; lia.
  - destruct (i + n <? 0)%Z eqn:E4; lia.
  - destruct (n <=? i)%Z eqn:E4; lia.
  - destruct (n <=? i)%Z eqn:E4; lia.
Qed.

Lemma slice_bound_range n k i :
  (0 <= n)%Z -> (if 0 <? k then 0 <= slice_bound n k i <= n else -1 <= slice_bound n k i <= n - 1)%Z.
Proof. intros Hn. unfold slice_bound. destruct (0 <? k)%Z, (i <? 0)%Z; lia. Qed.

Lemma slice_positions_spec d s ps :
  slice_positions d s = Ok ps ->
  (forall p, In p ps <-> p < d /\ slice_selects d (sl_start s) (sl_stop s) (sl_step s) p) /\
  NoDup ps /\ (item_step_pos (ISlice s) -> StronglySorted lt ps).
Proof.
  unfold slice_positions, slice_selects. destruct s as [start stop step]; cbn [sl_start sl_stop sl_step].
  set (k := match step with None => 1%Z | Some k => k end).
  destruct (k =? 0)%Z eqn:Ek; [discriminate|]. intros H. injection H as <-.
  set (N := Z.of_nat d). assert (HN : (0 <= N)%Z) by lia.
  replace (match step with Some k0 => k0 | None => 1%Z end) with k by reflexivity.
  assert (Hlo : match start with None => if (k <? 0)%Z then (N - 1)%Z else 0%Z | Some i => clip_start N k i end
              = match start with Some i => slice_bound N k i | None => if (0 <? k)%Z then 0%Z else (N - 1)%Z end).
  { destruct start; [apply clip_start_bound; lia|]. destruct (k <? 0)%Z eqn:E1, (0 <? k)%Z eqn:E2; lia. }
  assert (Hhi : match stop with None => if (k <? 0)%Z then (-1)%Z else N | Some i => clip_start N k i end
              = match stop with Some i => slice_bound N k i | None => if (0 <? k)%Z then N else (-1)%Z end).
  { destruct stop; [apply clip_start_bound; lia|]. destruct (k <? 0)%Z eqn:E1, (0 <? k)%Z eqn:E2; lia. }
  rewrite Hlo, Hhi. clear Hlo Hhi.
  set (lo := match start with Some i => slice_bound N k i | None => if (0 <? k)%Z then 0%Z else (N - 1)%Z end).
  set (hi := match stop with Some i => slice_bound N k i | None => if (0 <? k)%Z then N else (-1)%Z end).
  assert (Rlo : (if 0 <? k then 0 <= lo <= N else -1 <= lo <= N - 1)%Z).
  { subst lo. destruct start; [apply slice_bound_range; exact HN|]. destruct (0 <? k)%Z eqn:E2; lia. }
  assert (Rhi : (if 0 <? k then 0 <= hi <= N else -1 <= hi <= N - 1)%Z).
  { subst hi. destruct stop; [apply slice_bound_range; exact HN|]. destruct (0 <? k)%Z eqn:E2; lia. }
  set (cnt := if (k <? 0)%Z then (if (hi <? lo)%Z then (lo - hi - 1) / (- k) + 1 else 0)%Z
              else (if (lo <? hi)%Z then (hi - lo - 1) / k + 1 else 0)%Z).
  assert (Hcnt : forall j : nat, (Z.of_nat j < cnt <->
             (if 0 <? k then lo + Z.of_nat j * k < hi else hi < lo + Z.of_nat j * k))%Z).
  { intros j. subst cnt. destruct (k <? 0)%Z eqn:E1, (0 <? k)%Z eqn:E2; try lia.
    - destruct (hi <? lo)%Z eqn:E3; [|nia].
      pose proof (Z.div_mod (lo - hi - 1) (- k) ltac:(lia)) as Hd.
      pose proof (Z.mod_pos_bound (lo - hi - 1) (- k) ltac:(lia)) as Hm. nia.
    - destruct (lo <? hi)%Z eqn:E3; [|nia].
      pose proof (Z.div_mod (hi - lo - 1) k ltac:(lia)) as Hd.
      pose proof (Z.mod_pos_bound (hi - lo - 1) k ltac:(lia)) as Hm. nia. }
  assert (Hpos : forall j : nat, (Z.of_nat j < cnt)%Z -> (0 <= lo + Z.of_nat j * k < N)%Z).
  { intros j Hj. apply Hcnt in Hj. destruct (0 <? k)%Z eqn:E2; nia. }
  split; [|split].
  - intros p. rewrite in_map_iff. split.
    + intros [j [<- Hj]]. apply in_seq in Hj. assert (Z.of_nat j < cnt)%Z as Hj' by lia.
      specialize (Hpos j Hj'). apply Hcnt in Hj'. split; [lia|]. exists j.
      rewrite Z2Nat.id by lia. split; [reflexivity|exact Hj'].
    + intros [Hp [j [Hj1 Hj2]]]. exists j. rewrite <- Hj1. split; [lia|]. apply in_seq.
      rewrite Hj1 in Hj2. apply Hcnt in Hj2. lia.
  - apply (NoDup_nth _ 0). intros i j Hi Hj Heq. rewrite map_length, seq_length in *.
    rewrite !nth_map_seq in Heq by lia. simpl in Heq.
    pose proof (Hpos i ltac:(lia)). pose proof (Hpos j ltac:(lia)). nia.
  - intros Hk.
    assert (Hkp : (0 < k)%Z) by (subst k; simpl in Hk; destruct step; [exact Hk|lia]).
    assert (Hgen : forall n a, (Z.of_nat (a + n) <= cnt)%Z ->
        StronglySorted lt (map (fun j => Z.to_nat (lo + Z.of_nat j * k)) (seq a n))).
    { induction n as [|n IH]; intros a Hn; simpl; constructor.
      - apply IH. lia.
      - apply Forall_forall. intros x Hx. apply in_map_iff in Hx. destruct Hx as [j [<- Hj]].
        apply in_seq in Hj. pose proof (Hpos a ltac:(lia)). pose proof (Hpos j ltac:(lia)). nia. }
    destruct (Z.le_gt_cases 0 cnt) as [Hc|Hc].
    + apply Hgen. lia.
    + replace (Z.to_nat cnt) with 0 by lia. constructor.
Qed.

Lemma item_positions_spec d it ps :
  item_positions d it = Ok ps ->
  (forall p, In p ps <-> item_selects d it p) /\ NoDup ps /\ (item_step_pos it -> StronglySorted lt ps) /\
  (forall p, In p ps -> p < d).
Proof.
  destruct it as [i|s]; simpl; intros H.
  - pose proof (item_positions_int d i) as Hip. unfold item_positions in Hip. rewrite Hip in H.
    destruct ((- Z.of_nat d <=? i) && (i <? Z.of_nat d))%Z eqn:E; [|discriminate]. injection H as <-.
    assert (Hs : forall p, In p [Z.to_nat (if (i <? 0)%Z then (i + Z.of_nat d)%Z else i)] <-> denotes d i p).
    { intros p. unfold denotes. simpl. destruct (i <? 0)%Z eqn:E0; lia. }
    split; [exact Hs|]. split; [|split].
    + constructor; [simpl; tauto|constructor].
    + intros _. constructor; constructor.
    + intros p Hp. apply Hs in Hp. apply Hp.
  - destruct (slice_positions_spec _ _ _ H) as [H1 [H2 H3]].
    split; [exact H1|]. split; [exact H2|]. split; [exact H3|].
    intros p Hp. apply H1 in Hp. apply Hp.
Qed.

Lemma flat_map_cross ps inner m :
  StronglySorted lt ps -> StronglySorted lt inner -> (forall q, In q inner -> q < m) ->
  StronglySorted lt (flat_map (fun p => map (fun q => p * m + q) inner) ps).
Proof.
  intros Hp Hi Hm. induction Hp as [|p ps Hp IH HF]; simpl; [constructor|].
  assert (Happ : forall l1 l2, StronglySorted lt l1 -> StronglySorted lt l2 ->
             (forall x y, In x l1 -> In y l2 -> x < y) -> StronglySorted lt (l1 ++ l2)).
  { clear. induction l1 as [|x l1 IH]; intros l2 H1 H2 H; simpl; [exact H2|].
    inversion H1; subst. constructor.
    - apply IH; auto. intros; apply H; [now right|assumption].
    - rewrite Forall_app. split; [assumption|]. apply Forall_forall. intros y Hy. apply H; [now left|exact Hy]. }
  apply Happ.
  - clear - Hi. induction Hi as [|q inner Hq IH HF]; simpl; constructor; [exact IH|].
    rewrite Forall_forall in *. intros x Hx. apply in_map_iff in Hx. destruct Hx as [q' [<- Hq']].
    specialize (HF _ Hq'). lia.
  - exact IH.
  - intros x y Hx Hy. apply in_map_iff in Hx. destruct Hx as [q [<- Hq]].
    apply in_flat_map in Hy. destruct Hy as [p' [Hp' Hy]]. apply in_map_iff in Hy.
    destruct Hy as [q' [<- Hq']]. rewrite Forall_forall in HF. specialize (HF _ Hp').
    pose proof (Hm _ Hq). nia.
Qed.

Lemma flat_map_cross_NoDup ps inner m :
  NoDup ps -> NoDup inner -> (forall q, In q inner -> q < m) ->
  NoDup (flat_map (fun p => map (fun q => p * m + q) inner) ps).
Proof.
  intros Hp Hi Hm. induction Hp as [|p ps Hnot Hp IH]; simpl; [constructor|].
  assert (Happ : forall (l1 l2 : list nat), NoDup l1 -> NoDup l2 ->
             (forall x, In x l1 -> ~ In x l2) -> NoDup (l1 ++ l2)).
  { clear. induction l1 as [|x l1 IH]; intros l2 H1 H2 H; simpl; [exact H2|].
    inversion H1; subst. constructor.
    - rewrite in_app_iff. intros [Hx|Hx]; [contradiction|]. apply (H x); [now left|exact Hx].
    - apply IH; auto. intros y Hy. apply H. now right. }
  apply Happ; [|exact IH|].
  - clear - Hi. induction Hi as [|q inner Hq Hi IH]; simpl; constructor; [|exact IH].
    intros Hin. apply in_map_iff in Hin. destruct Hin as [q' [Heq Hq']].
    assert (q' = q) by lia. congruence.
  - intros x Hx Hy. apply in_map_iff in Hx. destruct Hx as [q [<- Hq]].
    apply in_flat_map in Hy. destruct Hy as [p' [Hp' Hy]]. apply in_map_iff in Hy.
    destruct Hy as [q' [Heq Hq']]. pose proof (Hm _ Hq). pose proof (Hm _ Hq').
    assert (p' = p) by nia. congruence.
Qed.

Lemma in_cross ps inner m x :
  In x (flat_map (fun p => map (fun q => p * m + q) inner) ps) <->
  exists p q, In p ps /\ In q inner /\ x = p * m + q.
Proof.
  rewrite in_flat_map. split.
  - intros [p [Hp Hx]]. apply in_map_iff in Hx. destruct Hx as [q [<- Hq]]. eauto 6.
  - intros [p [q [Hp [Hq ->]]]]. exists p. split; [exact Hp|]. apply in_map_iff. eauto.
Qed.

Lemma StronglySorted_seq a n : StronglySorted lt (seq a n).
Proof.
  revert a; induction n as [|n IH]; intros a; simpl; constructor; [apply IH|].
  apply Forall_forall. intros x Hx. apply in_seq in Hx. lia.
Qed.

Lemma items_select_length shp items idx : items_select shp items idx -> length idx = length shp.
Proof.
  revert items idx; induction shp as [|d shp IH]; intros [|it items] [|p idx] H; simpl in *; try tauto;
    destruct H as [_ H]; apply IH in H; lia.
Qed.

Lemma items_select_in_shape shp items idx : items_select shp items idx -> in_shape shp idx.
Proof.
  revert items idx; induction shp as [|d shp IH]; intros [|it items] [|p idx] H; simpl in *; try tauto;
    try constructor; try (destruct H as [H1 H2]); try (eapply IH; exact H2).
  - exact H1.
  - destruct it; simpl in H1; apply H1.
Qed.

Lemma select_spec shp items ps :
  select shp items = Ok ps ->
  (forall x, In x ps <-> exists idx, items_select shp items idx /\ ravel shp idx = x) /\
  NoDup ps /\
  (Forall item_step_pos items -> StronglySorted lt ps) /\
  (forall x, In x ps -> x < prod shp).
Proof.
  revert items ps; induction shp as [|d shp IH]; intros [|it items] ps H; simpl in H.
  - injection H as <-. repeat split.
    + intros [<-|[]]. exists []. simpl. auto.
    + intros [[|? ?] [H1 H2]]; simpl in *; [now left|tauto].
    + constructor; [simpl; tauto|constructor].
    + intros _. constructor; constructor.
    + intros x [<-|[]]. simpl. lia.
  - discriminate.
  - destruct (select shp []) as [inner|e] eqn:Hsel; simpl in H; [|discriminate]. injection H as <-.
    destruct (IH _ _ Hsel) as [H1 [H2 [H3 H4]]]. repeat split.
    + intros Hx. apply in_cross in Hx. destruct Hx as [p [q [Hp [Hq ->]]]]. apply in_seq in Hp.
      apply H1 in Hq. destruct Hq as [idx [Hidx Hr]]. exists (p :: idx). simpl.
      change (cells shp) with (prod shp). rewrite Hr. repeat split; [lia|exact Hidx].
    + intros [idx [Hidx <-]]. destruct idx as [|p idx]; simpl in Hidx; [tauto|]. destruct Hidx as [Hp Hidx].
      apply in_cross. exists p, (ravel shp idx). split; [|split; [|reflexivity]].
      * apply in_seq. lia.
      * apply H1. eauto.
    + apply flat_map_cross_NoDup; auto. apply seq_NoDup.
    + intros _. apply flat_map_cross; auto. apply StronglySorted_seq.
    + intros x Hx. apply in_cross in Hx. destruct Hx as [p [q [Hp [Hq ->]]]]. apply in_seq in Hp.
      apply H4 in Hq. simpl. nia.
  - destruct (item_positions d it) as [pos|e] eqn:Hpos; simpl in H; [|discriminate].
    destruct (select shp items) as [inner|e] eqn:Hsel; simpl in H; [|discriminate]. injection H as <-.
    destruct (IH _ _ Hsel) as [H1 [H2 [H3 H4]]].
    destruct (item_positions_spec _ _ _ Hpos) as [P1 [P2 [P3 P4]]]. repeat split.
    + intros Hx. apply in_cross in Hx. destruct Hx as [p [q [Hp [Hq ->]]]]. apply P1 in Hp.
      apply H1 in Hq. destruct Hq as [idx [Hidx Hr]]. exists (p :: idx). simpl.
      change (cells shp) with (prod shp). rewrite Hr. repeat split; assumption.
    + intros [idx [Hidx <-]]. destruct idx as [|p idx]; simpl in Hidx; [tauto|]. destruct Hidx as [Hp Hidx].
      apply in_cross. exists p, (ravel shp idx). split; [|split; [|reflexivity]].
      * now apply P1.
      * apply H1. eauto.
    + apply flat_map_cross_NoDup; auto.
    + intros HF. inversion HF; subst. apply flat_map_cross; auto.
    + intros x Hx. apply in_cross in Hx. destruct Hx as [p [q [Hp [Hq ->]]]]. apply P4 in Hp.
      apply H4 in Hq. simpl. nia.
Qed.

Lemma item_positions_ok d it : item_bad d it = None <-> exists ps, item_positions d it = Ok ps.
Proof.
  destruct it as [i|[start stop step]]; simpl.
  - pose proof (item_positions_int d i) as Hip. unfold item_positions in Hip. rewrite Hip.
    destruct ((- Z.of_nat d <=? i) && (i <? Z.of_nat d))%Z; split; eauto; intros; try discriminate.
    now destruct H.
  - unfold slice_positions; cbn [sl_step]. destruct step as [[|k|k]|]; simpl.
    + split; [discriminate|]. intros [ps H]. discriminate.
    + split; eauto.
    + split; eauto.
    + split; eauto.
Qed.
Lemma select_ok_iff shp items :
  (exists ps, select shp items = Ok ps) <->
  length items <= length shp /\
  forall k, k < length items -> item_bad (nth k shp 0) (nth k items (IInt 0)) = None.
Proof.
  revert items; induction shp as [|d shp IH]; intros [|it items]; simpl.
  - split; intros _; [split; [lia|intros k Hk; lia]|eauto].
  - split; [intros [ps H]; discriminate|intros [H _]; lia].
  - split; intros _; [split; [lia|intros k Hk; lia]|].
    destruct (proj2 (IH [])) as [ps Hps]; [simpl; split; [lia|intros; lia]|]. rewrite Hps. simpl. eauto.
  - split.
    + intros [ps H]. destruct (item_positions d it) as [pos|e] eqn:Hpos; simpl in H; [|discriminate].
      destruct (select shp items) as [inner|e] eqn:Hsel; simpl in H; [|discriminate].
      destruct (proj1 (IH items) (ex_intro _ _ Hsel)) as [H1 H2]. split; [lia|].
      intros [|k] Hk; [apply item_positions_ok; eauto|]. apply H2. lia.
    + intros [Hl Hb]. destruct (proj1 (item_positions_ok d it) (Hb 0 ltac:(lia))) as [pos ->]. cbn [bind].
      destruct (proj2 (IH items)) as [inner ->]; [|simpl; eauto].
      split; [lia|]. intros k Hk. apply (Hb (S k)). lia.
Qed.

Lemma combine_map_same {A B C} (f : A -> B) (g : A -> C) l :
  combine (map f l) (map g l) = map (fun x => (f x, g x)) l.
Proof. induction l; simpl; congruence. Qed.

Lemma C03_lemma id ns shp v s items vs :
  wf_ns ns -> NDVarArray id ns shp = Ok v ->
  va_getitem v (ISlice s :: items) = Ok (GList vs) ->
  exists ps,
    vs = map (fun p => nth p (va_variables v) (0%Z, 0)) ps /\
    (forall p, In p ps <-> exists idx, items_select shp (ISlice s :: items) idx /\ ravel shp idx = p) /\
    NoDup ps /\ (Forall item_step_pos (ISlice s :: items) -> StronglySorted lt ps) /\
    (forall idx, items_select shp (ISlice s :: items) idx ->
       va_getitem v (map (fun i => IInt (Z.of_nat i)) idx)
       = Ok (GVar (nth (ravel shp idx) (va_variables v) (0%Z, 0)))).
Proof.
  intros Hwf H Hget. destruct (NDVarArray_inv _ _ _ _ Hwf H) as [Hid [Hs [Hln _]]]. rewrite <- Hs in *.
  unfold va_getitem in Hget. destruct (_ <? _); [discriminate|]. destruct (select (va_shape v) (ISlice s :: items)) as [ps|e] eqn:Hsel; [|discriminate].
  cbn [bind] in Hget. injection Hget as <-. destruct (select_spec _ _ _ Hsel) as [H1 [H2 [H3 H4]]].
  exists ps. repeat split; try assumption; try apply H1.
  - rewrite combine_map_same. apply map_ext_in. intros p Hp. apply H4 in Hp.
    rewrite nth_va_hashes by assumption. now rewrite nth_va_variables by assumption.
  - intros idx Hidx. pose proof (items_select_in_shape _ _ _ Hidx) as Hin.
    pose proof (in_shape_length _ _ Hin) as Hlen.
    assert (Hne : idx <> []).
    { intros ->. destruct (va_shape v); simpl in Hidx; tauto. }
    destruct (C02_lemma id ns (va_shape v) v (map Z.of_nat idx) Hwf) as [HA _].
    + exact H.
    + destruct idx; [congruence|discriminate].
    + now rewrite map_length.
    + destruct (HA idx) as [x [Hx [_ Hg]]].
      * now rewrite map_length.
      * clear - Hin. unfold in_shape in Hin. induction Hin as [|i d idx s Hi Hin IH]; simpl; constructor; auto.
        unfold denotes. simpl. lia.
      * rewrite map_map in Hg. rewrite Hg. f_equal. f_equal. symmetry. apply nth_error_nth. exact Hx.
Qed.

(** Failing slices: too many indices or an integer out of range (IndexError), a zero
    step (ValueError). *)
Lemma C03_fail_lemma id ns shp v s items :
  wf_ns ns -> NDVarArray id ns shp = Ok v ->
  ((exists vs, va_getitem v (ISlice s :: items) = Ok (GList vs)) <->
   length (ISlice s :: items) <= length shp /\
   forall k, k < length (ISlice s :: items) ->
     item_bad (nth k shp 0) (nth k (ISlice s :: items) (IInt 0)) = None).
Proof.
  intros Hwf H. destruct (NDVarArray_inv _ _ _ _ Hwf H) as [Hid [Hs [Hln _]]]. rewrite <- Hs.
  rewrite <- select_ok_iff. unfold va_getitem. split.
  - intros [vs Hv]. destruct (_ <? _); [discriminate|]. destruct (select (va_shape v) (ISlice s :: items)); [eauto|discriminate].
  - intros Hps. pose proof (proj1 (select_ok_iff _ _) Hps) as [Hlen _]. destruct Hps as [ps Hps].
    destruct (Nat.ltb_spec (length (va_shape v)) (length (ISlice s :: items))); [lia|]. rewrite Hps. cbn [bind]. eauto.
Qed.

(** ** C04 *)
Lemma count_occ_app_bool (a b : list bool) :
  count_occ Bool.bool_dec (a ++ b) true = count_occ Bool.bool_dec a true + count_occ Bool.bool_dec b true.
Proof. apply count_occ_app. Qed.

Lemma mask_row_count m n : n <= m -> count_occ Bool.bool_dec (map (fun j => j <? n) (seq 0 m)) true = n.
Proof.
  intros H. replace m with (n + (m - n)) by lia. rewrite seq_app, map_app, count_occ_app. simpl.
  assert (H1 : forall a k, a + k <= n -> count_occ Bool.bool_dec (map (fun j => j <? n) (seq a k)) true = k).
  { intros a k; revert a; induction k as [|k IH]; intros a Hk; simpl; [reflexivity|].
    destruct (Nat.ltb_spec a n); [|lia]. destruct (Bool.bool_dec true true); [|congruence]. rewrite IH; lia. }
  assert (H2 : forall a k, n <= a -> count_occ Bool.bool_dec (map (fun j => j <? n) (seq a k)) true = 0).
  { intros a k; revert a; induction k as [|k IH]; intros a Hk; simpl; [reflexivity|].
    destruct (Nat.ltb_spec a n); [lia|]. destruct (Bool.bool_dec false true); [congruence|]. apply IH. lia. }
  rewrite H1, H2 by lia. lia.
Qed.

Lemma state_mask_count m ns :
  (forall n, In n ns -> n <= m) -> count_occ Bool.bool_dec (state_mask m ns) true = list_sum ns.
Proof.
  unfold state_mask. induction ns as [|n ns IH]; intros H; simpl; [reflexivity|].
  rewrite count_occ_app, mask_row_count by (apply H; now left).
  rewrite IH by (intros; apply H; now right). reflexivity.
Qed.

Lemma state_mask_length m ns : length (state_mask m ns) = length ns * m.
Proof.
  unfold state_mask. apply flat_map_length_uniform. intros. now rewrite map_length, seq_length.
Qed.

Lemma nth_state_mask m ns i j :
  i < length ns -> j < m -> nth (i * m + j) (state_mask m ns) false = (j <? nth i ns 0).
Proof.
  intros Hi Hj. unfold state_mask. rewrite (nth_flat_map_uniform _ _ m _ _ _ 0); [|intros; now rewrite map_length, seq_length|lia|lia].
  now rewrite nth_map_seq by lia.
Qed.

Lemma va_flatten_spec {A} v (d : ndarray A) :
  length (va_num_states v) = prod (va_shape v) -> wf_arr d ->
  va_flatten v d =
    if shape_eqb (shape d) (va_shape v) then Ok (data d)
    else if (0 <? prod (va_shape v)) && shape_eqb (shape d) (va_shape v ++ [nat_max (va_num_states v)])
    then Ok (mask_get (state_mask (nat_max (va_num_states v)) (va_num_states v)) (data d))
    else Raise ValueError.
Proof.
  intros Hl Hw. unfold va_flatten. destruct (shape_eqb (shape d) (va_shape v)); [reflexivity|].
  destruct (va_num_states v) as [|n r]; simpl in Hl.
  - rewrite <- Hl. reflexivity.
  - rewrite <- Hl. simpl. reflexivity.
Qed.

Lemma app_single_neq {A} (s : list A) x : s ++ [x] <> s.
Proof. intros H. apply (f_equal (@length A)) in H. rewrite app_length in H. simpl in H. lia. Qed.

Lemma list_sum_pos_eq_length ns :
  (forall n, In n ns -> 0 < n) -> list_sum ns = length ns -> forall n, In n ns -> n = 1.
Proof.
  induction ns as [|x r IH]; intros Hp Hs n Hn; [destruct Hn|].
  assert (Hr : length r <= list_sum r).
  { clear - Hp. induction r as [|y r IH]; simpl; [lia|].
    assert (0 < y) by (apply Hp; simpl; auto).
    assert (length r <= list_sum r) by (apply IH; intros; apply Hp; simpl in *; tauto). lia. }
  simpl in Hs. assert (0 < x) by (apply Hp; now left).
  destruct Hn as [<-|Hn]; [lia|]. apply IH; auto; [intros; apply Hp; now right|lia].
Qed.

Lemma C04_accept {A} v (d : ndarray A) :
  length (va_num_states v) = prod (va_shape v) -> wf_arr d ->
  ((exists f, va_flatten v d = Ok f) <->
     shape d = va_shape v \/
     (va_num_states v <> [] /\ shape d = va_shape v ++ [nat_max (va_num_states v)])) /\
  (forall e, va_flatten v d = Raise e -> e = ValueError).
Proof.
  intros Hl Hw. rewrite (va_flatten_spec v d Hl Hw).
  destruct (shape_eqb (shape d) (va_shape v)) eqn:E1.
  - apply shape_eqb_eq in E1. split; [split; eauto|discriminate].
  - apply shape_eqb_neq in E1.
    destruct (0 <? prod (va_shape v)) eqn:E2; simpl.
    + destruct (shape_eqb (shape d) _) eqn:E3.
      * apply shape_eqb_eq in E3. split; [|discriminate]. split; [|eauto]. intros _. right. split; [|exact E3].
        apply Nat.ltb_lt in E2. destruct (va_num_states v); [simpl in Hl; lia|discriminate].
      * apply shape_eqb_neq in E3. split; [|congruence].
        split; [intros [f Hf]; discriminate|]. intros [H|[_ H]]; congruence.
    + split; [|congruence]. split; [intros [f Hf]; discriminate|].
      intros [H|[H _]]; [congruence|]. exfalso. apply Nat.ltb_ge in E2.
      destruct (va_num_states v); [congruence|simpl in Hl; lia].
Qed.

Lemma C04_per_variable {A} (ninf : A) v (d : ndarray A) :
  length (va_num_states v) = prod (va_shape v) -> wf_arr d -> shape d = va_shape v ->
  exists f, va_flatten v d = Ok f /\ f = data d /\ va_unflatten ninf v (mkArr [length f] f) = Ok d.
Proof.
  intros Hl Hw Hs. exists (data d). unfold va_flatten. rewrite Hs, shape_eqb_refl.
  split; [reflexivity|]. split; [reflexivity|]. unfold va_unflatten. simpl.
  unfold wf_arr in Hw. rewrite Hw, Hs, Nat.eqb_refl. rewrite <- Hs. now destruct d.
Qed.

Lemma C04_per_state {A} (ninf : A) v (d : ndarray A) :
  length (va_num_states v) = prod (va_shape v) -> wf_arr d -> va_num_states v <> [] ->
  shape d = va_shape v ++ [nat_max (va_num_states v)] ->
  list_sum (va_num_states v) <> prod (va_shape v) ->
  exists f d', va_flatten v d = Ok f /\ length f = list_sum (va_num_states v) /\
    va_unflatten ninf v (mkArr [length f] f) = Ok d' /\ shape d' = shape d /\
    length (data d') = length (data d) /\
    forall i j, i < prod (va_shape v) -> j < nat_max (va_num_states v) ->
      nth (i * nat_max (va_num_states v) + j) (data d') ninf
      = if j <? nth i (va_num_states v) 0
        then nth (i * nat_max (va_num_states v) + j) (data d) ninf else ninf.
Proof.
  intros Hl Hw Hne Hs Hsum.
  assert (Hlen : length (data d) = prod (va_shape v) * nat_max (va_num_states v)).
  { unfold wf_arr in Hw. rewrite Hw, Hs, prod_app. simpl. lia. }
  assert (Hcnt : count_occ Bool.bool_dec (state_mask (nat_max (va_num_states v)) (va_num_states v)) true
                 = list_sum (va_num_states v)).
  { apply state_mask_count. intros n Hn. now apply nat_max_ge. }
  assert (Hml : length (state_mask (nat_max (va_num_states v)) (va_num_states v)) = length (data d)).
  { rewrite state_mask_length, Hlen. lia. }
  unfold va_flatten. rewrite Hs.
  assert (E1 : shape_eqb (va_shape v ++ [nat_max (va_num_states v)]) (va_shape v) = false).
  { apply shape_eqb_neq. apply app_single_neq. }
  rewrite E1, shape_eqb_refl.
  remember (va_num_states v) as ns eqn:Hns. destruct ns as [|n0 r] eqn:Hnsr; [congruence|]. rewrite <- Hnsr in *.
  exists (mask_get (state_mask (nat_max ns) ns) (data d)).
  assert (Hfl : length (mask_get (state_mask (nat_max ns) ns) (data d)) = list_sum ns).
  { rewrite mask_get_length by assumption. exact Hcnt. }
  exists (mkArr (va_shape v ++ [nat_max ns])
            (mask_set (state_mask (nat_max ns) ns) (repeat ninf (prod (va_shape v) * nat_max ns))
                      (mask_get (state_mask (nat_max ns) ns) (data d)))).
  split; [reflexivity|]. split; [exact Hfl|]. split; [|split; [|split]].
  - unfold va_unflatten. simpl. rewrite Hfl, <- Hns.
    destruct (Nat.eqb_spec (list_sum ns) (prod (va_shape v))); [congruence|]. rewrite Nat.eqb_refl.
    rewrite Hnsr at 1. reflexivity.
  - reflexivity.
  - simpl. rewrite mask_set_length, repeat_length. lia.
  - intros i j Hi Hj. simpl.
    assert (Hij : i * nat_max ns + j < prod (va_shape v) * nat_max ns) by nia.
    rewrite nth_mask_set_get; [|lia|rewrite repeat_length; lia|lia].
    rewrite nth_state_mask by lia. destruct (j <? nth i ns 0); [reflexivity|].
    now apply nth_repeat_lt.
Qed.

Lemma C04_back {A} (ninf : A) v (f : list A) d :
  length (va_num_states v) = prod (va_shape v) ->
  va_unflatten ninf v (mkArr [length f] f) = Ok d -> va_flatten v d = Ok f.
Proof.
  intros Hl H. unfold va_unflatten in H. simpl in H.
  destruct (Nat.eqb_spec (length f) (prod (va_shape v))) as [E|E].
  - injection H as <-. unfold va_flatten. simpl. now rewrite shape_eqb_refl.
  - destruct (Nat.eqb_spec (length f) (list_sum (va_num_states v))) as [E2|E2]; [|discriminate].
    destruct (va_num_states v) as [|n0 r] eqn:Hns; [discriminate|]. rewrite <- Hns in *.
    injection H as <-. unfold va_flatten. simpl.
    assert (E1 : shape_eqb (va_shape v ++ [nat_max (va_num_states v)]) (va_shape v) = false).
    { apply shape_eqb_neq. apply app_single_neq. }
    rewrite E1, shape_eqb_refl. rewrite Hns at 1. f_equal.
    apply mask_get_set.
    + rewrite state_mask_length, repeat_length. lia.
    + rewrite state_mask_count by (intros; now apply nat_max_ge). exact E2.
Qed.

(** ** C05 *)
Lemma index_of_nth names x i :
  NoDup names -> i < length names -> nth i names 0%Z = x -> index_of x names = Some i.
Proof.
  revert i; induction names as [|y r IH]; intros i Hnd Hi Hx; simpl in *; [lia|].
  inversion Hnd; subst. destruct i as [|i].
  - now rewrite Z.eqb_refl.
  - destruct (Z.eqb_spec (nth i r 0%Z) y) as [E|E].
    + exfalso. apply H1. rewrite <- E. apply nth_In. lia.
    + rewrite (IH i); auto; lia.
Qed.

Lemma index_of_None names x : index_of x names = None <-> ~ In x names.
Proof.
  induction names as [|y r IH]; simpl; [split; auto|].
  destruct (Z.eqb_spec x y) as [->|E].
  - split; [discriminate|]. intros H. exfalso. auto.
  - destruct (index_of x r).
    + split; [discriminate|]. intros H. exfalso. apply H. right.
      destruct (in_dec Z.eq_dec x r) as [Hi|Hi]; [exact Hi|]. apply IH in Hi. discriminate.
    + split; [|reflexivity]. intros _ [H|H]; [congruence|]. now apply IH.
Qed.

Lemma C05_getitem_lemma id ns names v :
  wf_ns ns -> VarDict id ns names = Ok v -> NoDup names ->
  (forall i, i < length names ->
     exists x, nth_error (vd_variables v) i = Some x /\ snd x = nth i (vd_num_states v) 0 /\
               vd_getitem v (nth i names 0%Z) = Ok x) /\
  (forall x, ~ In x names -> vd_getitem v x = Raise ValueError).
Proof.
  intros Hwf H Hnd. destruct (VarDict_inv _ _ _ _ Hwf H) as [Hid [Hn Hl]]. rewrite <- Hn in *. split.
  - intros i Hi. exists (nth i (vd_variables v) (0%Z, 0)). split; [|split].
    + apply nth_error_nth'. rewrite vd_variables_length; assumption.
    + now rewrite nth_vd_variables by assumption.
    + unfold vd_getitem. rewrite (index_of_nth _ _ i Hnd Hi eq_refl).
      rewrite nth_vd_variables by assumption. unfold vd_variable_hashes. now rewrite nth_map_seq by lia.
  - intros x Hx. unfold vd_getitem. apply index_of_None in Hx. now rewrite Hx.
Qed.

Lemma zeqb_sym : forall x y : Z, (x =? y)%Z = (y =? x)%Z.
Proof. intros. apply Z.eqb_sym. Qed.
Lemma zeqb_trans : forall x y z : Z, (x =? y)%Z = true -> (y =? z)%Z = true -> (x =? z)%Z = true.
Proof. intros x y z H1 H2. lia. Qed.

Lemma vd_check_ok {A} v (d : list (name * ndarray A)) :
  (exists us, mapM (vd_check v) d = Ok us) <-> vd_data_ok v d.
Proof.
  unfold vd_data_ok. induction d as [|[x a] r IH]; simpl.
  - split; [intros _ x a []|eauto].
  - unfold vd_check at 1. simpl. destruct (index_of x (vd_names v)) as [i|] eqn:Ei.
    + assert (Hin : In x (vd_names v)).
      { destruct (in_dec Z.eq_dec x (vd_names v)) as [Hi|Hi]; [exact Hi|]. apply index_of_None in Hi. congruence. }
      destruct (shape_eqb (shape a) [nth i (vd_num_states v) 0]) eqn:E1; simpl.
      * apply shape_eqb_eq in E1. split.
        -- intros [us Hus]. destruct (mapM (vd_check v) r) eqn:Hr; simpl in Hus; [|discriminate].
           intros x' a' [Heq|Hin']; [injection Heq as <- <-; rewrite Ei; auto|]. apply IH; eauto.
        -- intros HH. destruct (proj2 IH) as [us ->]; [intros; apply HH; now right|]. simpl. eauto.
      * destruct (shape_eqb (shape a) [1]) eqn:E2; simpl.
        -- apply shape_eqb_eq in E2. split.
           ++ intros [us Hus]. destruct (mapM (vd_check v) r) eqn:Hr; simpl in Hus; [|discriminate].
              intros x' a' [Heq|Hin']; [injection Heq as <- <-; auto|]. apply IH; eauto.
           ++ intros HH. destruct (proj2 IH) as [us ->]; [intros; apply HH; now right|]. simpl. eauto.
        -- apply shape_eqb_neq in E1, E2. split; [intros [us Hus]; discriminate|].
           intros HH. exfalso. destruct (HH x a) as [_ [H|H]]; [now left| |].
           ++ rewrite Ei in H. congruence.
           ++ congruence.
    + split; [intros [us Hus]; discriminate|]. intros HH. exfalso.
      destruct (HH x a) as [H _]; [now left|]. apply index_of_None in Ei. contradiction.
Qed.

Lemma vd_check_raise {A} v (d : list (name * ndarray A)) e :
  mapM (vd_check v) d = Raise e -> e = ValueError.
Proof.
  intros H. apply mapM_raise in H. destruct H as [[x a] [_ H]]. unfold vd_check in H. simpl in H.
  destruct (index_of x (vd_names v)); [|congruence].
  destruct (_ || _); congruence.
Qed.

Lemma vd_flatten_parts {A} v (d : list (name * ndarray A)) f :
  vd_flatten v d = Ok f ->
  vd_data_ok v d /\ (forall x, In x (vd_names v) -> exists a, dget Z.eqb x d = Some a) /\
  f = concat (map (fun x => match dget Z.eqb x d with Some a => data a | None => [] end) (vd_names v)) /\
  vd_names v <> [].
Proof.
  unfold vd_flatten. intros H. destruct (mapM (vd_check v) d) as [us|e] eqn:Hc; [|discriminate].
  cbn [bind] in H. split; [apply vd_check_ok; eauto|].
  destruct (mapM _ (vd_names v)) as [parts|e] eqn:Hp; [|discriminate]. cbn [bind] in H.
  pose proof (proj1 (mapM_Ok _ _ _) Hp) as HF.
  assert (Hall : forall x, In x (vd_names v) -> exists a, dget Z.eqb x d = Some a).
  { clear - HF. induction HF as [|x y l l' Hxy HF IH]; intros z Hz; [destruct Hz|].
    destruct Hz as [<-|Hz]; [|now apply IH]. destruct (dget Z.eqb x d); [eauto|discriminate]. }
  split; [exact Hall|].
  assert (Hpm : parts = map (fun x => match dget Z.eqb x d with Some a => data a | None => [] end) (vd_names v)).
  { clear - HF. induction HF as [|x y l l' Hxy HF IH]; simpl; [reflexivity|]. rewrite <- IH. f_equal.
    destruct (dget Z.eqb x d); congruence. }
  destruct parts as [|p ps] eqn:Eparts; [discriminate|]. rewrite <- Eparts in *. injection H as <-.
  split; [now rewrite Hpm|]. intros E. rewrite E in Hpm. simpl in Hpm. congruence.
Qed.

(** Exactly when flatten succeeds, and with which exceptions it fails. *)
Lemma C05_flatten_ok_iff {A} v (d : list (name * ndarray A)) :
  (exists f, vd_flatten v d = Ok f) <->
  vd_data_ok v d /\ (forall x, In x (vd_names v) -> exists a, dget Z.eqb x d = Some a) /\ vd_names v <> [].
Proof.
  split.
  - intros [f H]. apply vd_flatten_parts in H. tauto.
  - intros [H1 [H2 H3]]. unfold vd_flatten. destruct (proj2 (vd_check_ok v d) H1) as [us ->]. cbn [bind].
    rewrite (mapM_all _ (fun x => match dget Z.eqb x d with Some a => data a | None => [] end)).
    + cbn [bind]. destruct (vd_names v) as [|x r]; [congruence|]. simpl. eauto.
    + intros x Hx. destruct (H2 x Hx) as [a ->]. reflexivity.
Qed.

Lemma C05_flatten_errors {A} v (d : list (name * ndarray A)) :
  (~ vd_data_ok v d -> vd_flatten v d = Raise ValueError) /\
  (vd_data_ok v d -> forall x, In x (vd_names v) -> dget Z.eqb x d = None ->
     vd_flatten v d = Raise KeyError).
Proof.
  split.
  - intros H. unfold vd_flatten. destruct (mapM (vd_check v) d) as [us|e] eqn:Hc.
    + exfalso. apply H. apply vd_check_ok. eauto.
    + apply vd_check_raise in Hc. now subst.
  - intros H x Hx Hn. unfold vd_flatten. destruct (proj2 (vd_check_ok v d) H) as [us ->]. cbn [bind].
    destruct (mapM _ (vd_names v)) as [parts|e] eqn:Hp.
    + exfalso. apply mapM_Ok in Hp. clear - Hp Hx Hn.
      induction Hp as [|y z l l' Hyz Hp IH]; [destruct Hx|]. destruct Hx as [->|Hx]; [|auto].
      rewrite Hn in Hyz. discriminate.
    + apply mapM_raise in Hp. destruct Hp as [y [_ Hy]]. destruct (dget Z.eqb y d); [discriminate|].
      simpl. congruence.
Qed.

(** The unflatten loop, when names are distinct. [w] gives the width of each name. *)
Lemma vd_unflatten_loop {A} v (b : bool) (flat : list A) (w : name -> nat) names start acc :
  (forall x, In x names ->
     w x = if b then match index_of x (vd_names v) with Some i => nth i (vd_num_states v) 0 | None => 0 end else 1) ->
  NoDup names -> (forall x, In x names -> dget Z.eqb x acc = None) ->
  fold_left (vd_unflatten_step v b flat) names (start, acc) =
  (start + list_sum (map w names),
   acc ++ map (fun i => let x := nth i names 0%Z in
                        let part := slice flat (start + off (map w names) i)
                                      (start + off (map w names) i + w x) in
                        (x, mkArr [if b then length part else 1] part)) (seq 0 (length names))).
Proof.
  revert start acc; induction names as [|x r IH]; intros start acc Hw Hnd Hnew.
  - simpl. rewrite app_nil_r. f_equal. lia.
  - inversion Hnd; subst. cbn [fold_left].
    assert (Hstep : vd_unflatten_step v b flat (start, acc) x
              = (start + w x, acc ++ [(x, mkArr [if b then length (slice flat start (start + w x)) else 1]
                                            (slice flat start (start + w x)))])).
    { unfold vd_unflatten_step. cbn [fst snd]. rewrite (Hw x) by now left.
      destruct b; rewrite dset_length_new by (apply Hnew; now left); reflexivity. }
    rewrite Hstep, IH.
    + change (list_sum (map w (x :: r))) with (w x + list_sum (map w r)). cbn [map length]. rewrite <- cons_seq, <- seq_shift. cbn [map].
      rewrite map_map, <- app_assoc. cbn [app]. f_equal; [lia|]. f_equal. f_equal.
      * rewrite off_0, Nat.add_0_r. reflexivity.
      * apply map_ext. intros i. cbn [nth]. rewrite off_cons. rewrite Nat.add_assoc. reflexivity.
    + intros y Hy. apply Hw. now right.
    + assumption.
    + intros y Hy. rewrite dget_app, Hnew by (now right). simpl.
      destruct (Z.eqb_spec y x) as [->|E]; [contradiction|reflexivity].
Qed.

Lemma dget_map_nodup {A} names (h : nat -> A) i k :
  NoDup (map (fun j => nth j names 0%Z) (seq i k)) ->
  forall j, i <= j < i + k ->
  dget Z.eqb (nth j names 0%Z) (map (fun j => (nth j names 0%Z, h j)) (seq i k)) = Some (h j).
Proof.
  revert i; induction k as [|k IH]; intros i Hnd j Hj; [lia|]. simpl in *. inversion Hnd; subst.
  destruct (Z.eqb_spec (nth j names 0%Z) (nth i names 0%Z)) as [E|E].
  - destruct (Nat.eq_dec i j) as [->|Hne]; [reflexivity|]. exfalso. apply H1. rewrite <- E.
    apply in_map_iff. exists j. split; [reflexivity|]. apply in_seq. lia.
  - apply IH; [assumption|]. assert (i <> j) by congruence. lia.
Qed.

Lemma concat_slice {A} (parts : list (list A)) i :
  i < length parts ->
  slice (concat parts) (off (map (@length A) parts) i)
        (off (map (@length A) parts) i + length (nth i parts [])) = nth i parts [].
Proof.
  intros Hi. destruct (nth i parts []) as [|x0 r] eqn:Hr.
  - unfold slice. now replace (_ + length (@nil A) - _) with 0 by (simpl; lia).
  - rewrite <- Hr. apply (nth_ext _ _ x0 x0).
    + rewrite slice_length, concat_length.
      pose proof (off_S (map (@length A) parts) i) as HS. rewrite map_length in HS. specialize (HS Hi).
      rewrite (nth_map _ _ _ _ []) in HS by exact Hi.
      pose proof (off_le_sum (map (@length A) parts) (S i)). lia.
    + intros j Hj. rewrite slice_length in Hj. rewrite nth_slice by lia. apply nth_concat; [exact Hi|lia].
Qed.

Lemma vd_roundtrip_gen {A} (b : bool) v (d : list (name * ndarray A)) f (w : name -> nat) :
  length (vd_num_states v) = length (vd_names v) -> NoDup (vd_names v) ->
  vd_flatten v d = Ok f ->
  (forall x, In x (vd_names v) ->
     w x = if b then match index_of x (vd_names v) with Some i => nth i (vd_num_states v) 0 | None => 0 end else 1) ->
  (forall x a, In x (vd_names v) -> dget Z.eqb x d = Some a -> wf_arr a /\ shape a = [w x]) ->
  length f = list_sum (map w (vd_names v)) /\
  forall x a, In x (vd_names v) -> dget Z.eqb x d = Some a ->
    dget Z.eqb x (snd (fold_left (vd_unflatten_step v b f) (vd_names v) (0, []))) = Some a.
Proof.
  intros Hl Hnd Hf Hw Hd. destruct (vd_flatten_parts _ _ _ Hf) as [_ [Hall [Hcat _]]].
  set (part := fun x => match dget Z.eqb x d with Some a => data a | None => [] end) in *.
  assert (Hpl : forall x, In x (vd_names v) -> length (part x) = w x).
  { intros x Hx. destruct (Hall x Hx) as [a Ha]. unfold part. rewrite Ha.
    destruct (Hd x a Hx Ha) as [H1 H2]. unfold wf_arr in H1. rewrite H1, H2. simpl. lia. }
  assert (Hmap : map (@length A) (map part (vd_names v)) = map w (vd_names v)).
  { rewrite map_map. apply map_ext_in. exact Hpl. }
  split; [rewrite Hcat, concat_length, Hmap; reflexivity|].
  rewrite (vd_unflatten_loop v b f w (vd_names v) 0 []); auto. cbn [snd app].
  intros x a Hx Ha. apply (In_nth_iff _ _ 0%Z) in Hx. destruct Hx as [i [Hi <-]].
  rewrite (dget_map_nodup (vd_names v)
             (fun i => mkArr [if b then length (slice f (0 + off (map w (vd_names v)) i)
                                      (0 + off (map w (vd_names v)) i + w (nth i (vd_names v) 0%Z))) else 1]
                         (slice f (0 + off (map w (vd_names v)) i)
                                      (0 + off (map w (vd_names v)) i + w (nth i (vd_names v) 0%Z)))) 0 _).
  - f_equal. assert (Hin : In (nth i (vd_names v) 0%Z) (vd_names v)) by now apply nth_In.
    assert (Hsl : slice f (0 + off (map w (vd_names v)) i)
                    (0 + off (map w (vd_names v)) i + w (nth i (vd_names v) 0%Z)) = data a).
    { simpl. rewrite <- (Hpl _ Hin), <- Hmap, Hcat.
      pose proof (concat_slice (map part (vd_names v)) i) as Hc. rewrite map_length in Hc. specialize (Hc Hi).
      rewrite (nth_map _ _ _ _ 0%Z) in Hc by exact Hi. rewrite Hc. unfold part. now rewrite Ha. }
    rewrite Hsl. destruct (Hd _ _ Hin Ha) as [H1 H2]. unfold wf_arr in H1. rewrite H2 in H1. simpl in H1.
    destruct a as [sh da]. simpl in *. rewrite H2. f_equal. f_equal.
    destruct b; [lia|]. now rewrite (Hw _ Hin).
  - rewrite <- list_ext_seq. exact Hnd.
  - lia.
Qed.

Lemma list_sum_map_one {X} (l : list X) (w : X -> nat) :
  (forall x, In x l -> w x = 1) -> list_sum (map w l) = length l.
Proof. induction l as [|x r IH]; intros H; simpl; [reflexivity|]. rewrite H by now left. rewrite IH; auto.
  intros; apply H; now right. Qed.

Lemma map_index_num_states v :
  length (vd_num_states v) = length (vd_names v) -> NoDup (vd_names v) ->
  map (fun x => match index_of x (vd_names v) with Some i => nth i (vd_num_states v) 0 | None => 0 end)
      (vd_names v) = vd_num_states v.
Proof.
  intros Hl Hnd. apply (nth_ext _ _ 0 0); [now rewrite map_length|].
  intros i Hi. rewrite map_length in Hi. rewrite (nth_map _ _ _ _ 0%Z) by exact Hi.
  pose proof (index_of_nth _ _ i Hnd Hi eq_refl) as E. now rewrite E.
Qed.

(** Round trip: one value per variable, or one value per state. *)
Lemma C05_roundtrip_lemma {A} v (d : list (name * ndarray A)) f :
  length (vd_num_states v) = length (vd_names v) -> NoDup (vd_names v) ->
  (forall n, In n (vd_num_states v) -> 0 < n) ->
  (forall x a, In (x, a) d -> wf_arr a) ->
  vd_flatten v d = Ok f ->
  ((forall x a, In (x, a) d -> shape a = [1]) \/
   (forall x a, In (x, a) d ->
      shape a = [nth (match index_of x (vd_names v) with Some i => i | None => 0 end) (vd_num_states v) 0])) ->
  exists d', vd_unflatten v (mkArr [length f] f) = Ok d' /\
    forall x a, In x (vd_names v) -> dget Z.eqb x d = Some a -> dget Z.eqb x d' = Some a.
Proof.
  intros Hl Hnd Hpos Hwf Hf Hcase.
  assert (Hdin : forall x a, dget Z.eqb x d = Some a -> In (x, a) d).
  { intros x a Ha. apply dget_In in Ha. destruct Ha as [k' [Hk E]]. apply Z.eqb_eq in E. now subst. }
  unfold vd_unflatten. cbn [shape data length]. rewrite Nat.eqb_refl. cbn [negb].
  destruct Hcase as [Hc|Hc].
  - destruct (vd_roundtrip_gen false v d f (fun _ => 1) Hl Hnd Hf) as [H1 H2].
    + reflexivity.
    + intros x a _ Ha. apply Hdin in Ha. split; [eapply Hwf; eauto|eapply Hc; eauto].
    + rewrite list_sum_map_one in H1 by reflexivity. rewrite H1, Nat.eqb_refl. eauto.
  - set (w := fun x => match index_of x (vd_names v) with Some i => nth i (vd_num_states v) 0 | None => 0 end).
    assert (Hw : forall x a, In x (vd_names v) -> dget Z.eqb x d = Some a -> wf_arr a /\ shape a = [w x]).
    { intros x a Hx Ha. apply Hdin in Ha. split; [eapply Hwf; eauto|]. rewrite (Hc x a Ha). unfold w.
      destruct (index_of x (vd_names v)) eqn:E; [reflexivity|]. apply index_of_None in E. contradiction. }
    destruct (vd_roundtrip_gen true v d f w Hl Hnd Hf) as [H1 H2]; [reflexivity|exact Hw|].
    unfold w in H1. rewrite map_index_num_states in H1 by assumption.
    destruct (Nat.eqb_spec (length f) (length (vd_names v))) as [E|E].
    + assert (Hone : forall n, In n (vd_num_states v) -> n = 1).
      { apply list_sum_pos_eq_length; [exact Hpos|]. lia. }
      assert (Hw1 : forall x, In x (vd_names v) -> w x = 1).
      { intros x Hx. unfold w. apply (In_nth_iff _ _ 0%Z) in Hx. destruct Hx as [i [Hi <-]].
        rewrite (index_of_nth _ _ i Hnd Hi eq_refl). apply Hone. apply nth_In. lia. }
      destruct (vd_roundtrip_gen false v d f w Hl Hnd Hf) as [_ H3]; [exact Hw1|exact Hw|]. eauto.
    + rewrite H1, Nat.eqb_refl. eauto.
Qed.

(** ** Forms used by the property statements *)
Lemma constructed_wf g : constructed g -> wf_group g.
Proof.
  destruct g as [v|v]; simpl.
  - intros (id & ns & shp & Hw & H). destruct (NDVarArray_inv _ _ _ _ Hw H) as [_ [-> [Hl _]]]. exact Hl.
  - intros (id & ns & names & Hw & _ & H). destruct (VarDict_inv _ _ _ _ Hw H) as [_ [-> Hl]]. exact Hl.
Qed.

Lemma In_vg_variables g x :
  wf_group g -> In x (vg_variables g) -> exists i, i < length (vg_variables g) /\
    fst x = (vg_hash (vg_id g) + Z.of_nat i)%Z.
Proof.
  intros Hw Hx. apply (In_nth_iff _ _ (0%Z, 0)) in Hx. destruct Hx as [i [Hi <-]].
  exists i. split; [exact Hi|]. rewrite vg_variables_length in Hi by exact Hw.
  now rewrite nth_vg_variables by assumption.
Qed.

Lemma C01_lemma' g :
  constructed g -> (Z.of_nat (length (vg_variables g)) <= 1000000000)%Z ->
  (forall x, In x (vg_variables g) -> 0 <= fst x < 2 ^ 63)%Z /\
  NoDup (map fst (vg_variables g)) /\
  (forall g', constructed g' -> (Z.of_nat (length (vg_variables g')) <= 1000000000)%Z ->
     (vg_id g mod 2 ^ 32 <> vg_id g' mod 2 ^ 32)%Z ->
     forall x y, In x (vg_variables g) -> In y (vg_variables g') -> fst x <> fst y).
Proof.
  intros Hc Hs. pose proof (constructed_wf _ Hc) as Hw. split; [|split].
  - intros x Hx. destruct (In_vg_variables _ _ Hw Hx) as [i [Hi ->]].
    pose proof (vg_hash_range (vg_id g)) as Hr. unfold MAX_SIZE in *. lia.
  - apply (NoDup_nth _ 0%Z). intros i j Hi Hj Heq. rewrite map_length in *.
    rewrite !(nth_map _ _ _ _ (0%Z, 0)) in Heq by assumption.
    rewrite vg_variables_length in * by exact Hw.
    rewrite !nth_vg_variables in Heq by assumption. simpl in Heq. lia.
  - intros g' Hc' Hs' Hne x y Hx Hy. pose proof (constructed_wf _ Hc') as Hw'.
    destruct (In_vg_variables _ _ Hw Hx) as [i [Hi ->]].
    destruct (In_vg_variables _ _ Hw' Hy) as [j [Hj ->]].
    apply hash_disjoint; [exact Hne| |]; unfold MAX_SIZE; lia.
Qed.

Lemma C01_size_lemma id ns shp v :
  wf_ns ns -> NDVarArray id ns shp = Ok v ->
  length (va_variables v) = cells shp /\ (Z.of_nat (length (va_variables v)) <= 1000000000)%Z.
Proof.
  intros Hw H. destruct (NDVarArray_inv _ _ _ _ Hw H) as [_ [<- [Hl Hm]]].
  rewrite va_variables_length by exact Hl. split; [reflexivity|exact Hm].
Qed.

Lemma vd_data_ok_iff {A} v (d : list (name * ndarray A)) :
  NoDup (vd_names v) -> (vd_data_ok v d <-> vdict_data_ok v d).
Proof.
  intros Hnd. unfold vd_data_ok, vdict_data_ok. split; intros H x a Hin.
  - destruct (H x a Hin) as [H1 H2]. apply (In_nth_iff _ _ 0%Z) in H1. destruct H1 as [i [Hi Hx]].
    exists i. split.
    + rewrite <- Hx. now apply nth_error_nth'.
    + rewrite (index_of_nth _ _ i Hnd Hi Hx) in H2. exact H2.
  - destruct (H x a Hin) as [i [H1 H2]].
    assert (Hi : i < length (vd_names v)) by (apply nth_error_Some; congruence).
    pose proof (nth_error_nth _ _ 0%Z H1) as Hx. split; [eapply nth_error_In; exact H1|].
    rewrite (index_of_nth _ _ i Hnd Hi Hx). exact H2.
Qed.

Lemma vd_constructed_inv v :
  constructed (VD v) -> length (vd_num_states v) = length (vd_names v) /\ NoDup (vd_names v).
Proof.
  intros (id & ns & names & Hw & Hnd & H). destruct (VarDict_inv _ _ _ _ Hw H) as [_ [-> Hl]]. auto.
Qed.

Lemma C05_get_lemma v :
  constructed (VD v) ->
  (forall i x, nth_error (vd_names v) i = Some x ->
     exists y, nth_error (vd_variables v) i = Some y /\
               nth_error (vd_num_states v) i = Some (snd y) /\ vd_getitem v x = Ok y) /\
  (forall x, ~ In x (vd_names v) -> vd_getitem v x = Raise ValueError).
Proof.
  intros Hc. pose proof Hc as (id & ns & names & Hw & Hnd & H).
  destruct (VarDict_inv _ _ _ _ Hw H) as [_ [Hn Hl]].
  destruct (C05_getitem_lemma _ _ _ _ Hw H Hnd) as [H1 H2]. rewrite <- Hn in *. split; [|exact H2].
  intros i x Hx. assert (Hi : i < length (vd_names v)) by (apply nth_error_Some; congruence).
  destruct (H1 i Hi) as [y [Hy1 [Hy2 Hy3]]]. exists y. split; [exact Hy1|]. split.
  - rewrite Hy2. apply nth_error_nth'. lia.
  - rewrite (nth_error_nth _ _ 0%Z Hx) in Hy3. exact Hy3.
Qed.

Lemma C05_flatten_lemma {A} v (d : list (name * ndarray A)) :
  constructed (VD v) ->
  (forall f, vd_flatten v d = Ok f <->
     (vdict_data_ok v d /\ vd_names v <> [] /\
      exists parts, f = concat (map (@data A) parts) /\
        Forall2 (fun x a => dget Z.eqb x d = Some a) (vd_names v) parts)) /\
  (~ vdict_data_ok v d -> vd_flatten v d = Raise ValueError) /\
  (vdict_data_ok v d -> forall x, In x (vd_names v) -> dget Z.eqb x d = None ->
     vd_flatten v d = Raise KeyError).
Proof.
  intros Hc. destruct (vd_constructed_inv _ Hc) as [Hl Hnd].
  pose proof (vd_data_ok_iff v d Hnd) as HI.
  destruct (C05_flatten_errors v d) as [E1 E2].
  split; [|split; [rewrite <- HI; exact E1|rewrite <- HI; exact E2]].
  intros f. split.
  - intros Hf. destruct (vd_flatten_parts _ _ _ Hf) as [H1 [H2 [H3 H4]]].
    split; [now apply HI|]. split; [exact H4|].
    assert (exists parts, Forall2 (fun x a => dget Z.eqb x d = Some a) (vd_names v) parts) as [parts HF].
    { clear - H2. induction (vd_names v) as [|x r IH]; [exists []; constructor|].
      destruct (H2 x (or_introl eq_refl)) as [a Ha]. destruct IH as [ps Hps]; [intros; apply H2; now right|].
      exists (a :: ps). now constructor. }
    exists parts. split; [|exact HF]. rewrite H3. f_equal. clear - HF.
    induction HF as [|x a l l' Hx HF IH]; simpl; [reflexivity|]. now rewrite Hx, IH.
  - intros [H1 [H2 [parts [Hf HF]]]].
    destruct (proj2 (C05_flatten_ok_iff v d)) as [g Hg].
    { split; [now apply HI|]. split; [|exact H2]. clear - HF. intros x Hx.
      induction HF as [|y a l l' Hy HF IH]; [destruct Hx|]. destruct Hx as [<-|Hx]; eauto. }
    rewrite Hg. f_equal. destruct (vd_flatten_parts _ _ _ Hg) as [_ [_ [-> _]]]. rewrite Hf. f_equal.
    clear - HF. induction HF as [|x a l l' Hx HF IH]; simpl; [reflexivity|]. now rewrite Hx, IH.
Qed.

Lemma C05_round_lemma {A} v (d : list (name * ndarray A)) f :
  constructed (VD v) -> (forall n, In n (vd_num_states v) -> 0 < n) ->
  (forall x a, In (x, a) d -> wf_arr a) ->
  vd_flatten v d = Ok f ->
  ((forall x a, In (x, a) d -> shape a = [1]) \/
   (forall x a i, In (x, a) d -> nth_error (vd_names v) i = Some x -> shape a = [nth i (vd_num_states v) 0])) ->
  exists d', vd_unflatten v (mkArr [length f] f) = Ok d' /\
    forall x, In x (vd_names v) -> dget Z.eqb x d' = dget Z.eqb x d.
Proof.
  intros Hc Hpos Hwf Hf Hcase. destruct (vd_constructed_inv _ Hc) as [Hl Hnd].
  destruct (vd_flatten_parts _ _ _ Hf) as [H1 [H2 _]].
  destruct (C05_roundtrip_lemma v d f Hl Hnd Hpos Hwf Hf) as [d' [Hd' HH]].
  - destruct Hcase as [Hc'|Hc']; [left; exact Hc'|right]. intros x a Hin.
    destruct (proj1 (vd_data_ok_iff v d Hnd) H1 x a Hin) as [i [Hi _]].
    rewrite (Hc' x a i Hin Hi).
    assert (Hlt : i < length (vd_names v)) by (apply nth_error_Some; congruence).
    rewrite (index_of_nth _ _ i Hnd Hlt (nth_error_nth _ _ 0%Z Hi)). reflexivity.
  - exists d'. split; [exact Hd'|]. intros x Hx. destruct (H2 x Hx) as [a Ha].
    rewrite (HH x a Hx Ha). now symmetry.
Qed.

Lemma mask_get_row {A} m n (xs : list A) :
  n <= m -> length xs = m -> mask_get (map (fun j => j <? n) (seq 0 m)) xs = firstn n xs.
Proof.
  assert (H : forall (xs : list A) a, mask_get (map (fun j => j <? n) (seq a (length xs))) xs = firstn (n - a) xs).
  { clear. induction xs as [|x r IH]; intros a; simpl; [now rewrite firstn_nil|].
    rewrite IH. destruct (Nat.ltb_spec a n).
    - replace (n - a) with (S (n - S a)) by lia. reflexivity.
    - replace (n - a) with 0 by lia. now replace (n - S a) with 0 by lia. }
  intros Hn <-. rewrite H. now rewrite Nat.sub_0_r.
Qed.

Lemma mask_get_rows {A} m ns (xs : list A) :
  (forall n, In n ns -> n <= m) -> length xs = length ns * m ->
  mask_get (state_mask m ns) xs
  = concat (map (fun i => firstn (nth i ns 0) (skipn (i * m) xs)) (seq 0 (length ns))).
Proof.
  revert xs; induction ns as [|n ns IH]; intros xs Hle Hl; [reflexivity|].
  cbn [length] in *. rewrite <- cons_seq, <- seq_shift. cbn [map concat nth]. rewrite map_map.
  unfold state_mask. cbn [flat_map]. fold (state_mask m ns).
  rewrite <- (firstn_skipn m xs) at 1. rewrite mask_get_app.
  - rewrite mask_get_row, IH.
    + f_equal.
      * simpl. rewrite firstn_firstn. now rewrite Nat.min_l by (apply Hle; now left).
      * f_equal. apply map_ext. intros i. cbn [nth]. rewrite skipn_skipn'. reflexivity.
    + intros; apply Hle; now right.
    + rewrite skipn_length. lia.
    + apply Hle. now left.
    + rewrite firstn_length. lia.
  - rewrite map_length, seq_length, firstn_length. lia.
Qed.

Lemma C04_rows {A} v (d : ndarray A) f :
  length (va_num_states v) = prod (va_shape v) -> wf_arr d ->
  shape d = va_shape v ++ [nat_max (va_num_states v)] ->
  va_flatten v d = Ok f ->
  f = concat (map (fun i => firstn (nth i (va_num_states v) 0)
                              (skipn (i * nat_max (va_num_states v)) (data d)))
                  (seq 0 (prod (va_shape v)))).
Proof.
  intros Hl Hw Hs Hf. unfold va_flatten in Hf. rewrite Hs in Hf.
  assert (E1 : shape_eqb (va_shape v ++ [nat_max (va_num_states v)]) (va_shape v) = false).
  { apply shape_eqb_neq. apply app_single_neq. }
  rewrite E1, shape_eqb_refl in Hf.
  destruct (va_num_states v) as [|n0 r] eqn:Hns; [discriminate|]. rewrite <- Hns in *. injection Hf as <-.
  rewrite <- Hl. apply mask_get_rows.
  - intros. now apply nat_max_ge.
  - unfold wf_arr in Hw. rewrite Hw, Hs, prod_app. simpl. lia.
Qed.

Lemma C04_ambiguous v :
  constructed (VA v) -> (forall n, In n (va_num_states v) -> 0 < n) ->
  list_sum (va_num_states v) = prod (va_shape v) -> forall n, In n (va_num_states v) -> n = 1.
Proof.
  intros Hc Hp Hs. apply constructed_wf in Hc. simpl in Hc. apply list_sum_pos_eq_length; [exact Hp|lia].
Qed.
