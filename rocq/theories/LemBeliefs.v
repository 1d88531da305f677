(** * Proofs about beliefs, MAP states and marginals (C33-C35). *)
From Verif Require Import NumPy Lists VGroup FGraph BPState BP SpecVGroup SpecFGraph SpecFactor SpecWiring SpecState SpecBP SpecText SpecBeliefs.
From Verif Require Import LemVGroup LemFGraph LemEvidence LemWiring LemGraph LemState LemNum LemNorm LemVtoF LemText LemRun.
From Coq Require Import Reals Lra Lia.
Local Open Scope nat_scope.

(** ** Sums at a variable, with or without edges *)
Lemma nth_var_sums_any starts0 es n (msgs ev : list R) x s : disjoint_layout starts0 (x :: es) n ->
  length msgs = list_sum (map snd es) -> n <= length ev -> s < snd x ->
  nth (start_of starts0 x + s) (scatter nadd ev (edge_var_states starts0 es) msgs) 0%R
  = (nth (start_of starts0 x + s) ev 0 + rsum (map (fun e => nth (edge_start es e + s) msgs 0) (edges_of es x)))%R.
Proof.
  intros Hlay Hm Hev Hs. rewrite (flat_as_map _ _ Hm) at 1. rewrite edge_var_states_as_map.
  assert (Hp : start_of starts0 x + s < length ev) by (pose proof (proj1 Hlay x (or_introl eq_refl)); lia).
  rewrite nth_scatter_add; [|intros; lia|exact Hp]. f_equal.
  assert (E : filter (fun p => Z.eqb (Z.of_nat (start_of starts0 (nth (fst p) es (0%Z, 0)) + snd p)) (Z.of_nat (start_of starts0 x + s))) (positions (map snd es))
              = map (fun e => (e, s)) (edges_of es x)); [|rewrite E, map_map; reflexivity].
  unfold positions, edges_of. rewrite filter_flat_map, map_length, <- flat_map_if. apply flat_map_ext_in.
  intros e He. apply in_seq in He. rewrite nth_states by lia. rewrite filter_map. cbn [fst snd].
  assert (Hie : In (nth e es (0%Z, 0)) es) by (apply nth_In; lia).
  destruct (var_eqb (nth e es (0%Z, 0)) x) eqn:Ex.
  - apply var_eqb_eq in Ex. rewrite Ex.
    rewrite (filter_ext _ (fun t => t =? s)); [now rewrite filter_seq_eq|].
    intros t. destruct (Nat.eqb_spec t s); [subst; apply Z.eqb_refl|apply Z.eqb_neq; lia].
  - rewrite filter_none; [reflexivity|]. intros t Ht. apply in_seq in Ht. apply Z.eqb_neq. intros F.
    destruct (layout_same starts0 (x :: es) n Hlay (nth e es (0%Z, 0)) x t s) as [F1 F2]; [now right|now left|lia|lia|lia|].
    rewrite F1, (proj2 (var_eqb_eq x x) eq_refl) in Ex. discriminate.
Qed.

(** ** Rows *)
Lemma chunk {B} m (ls : list (list B)) i : (forall l, In l ls -> length l = m) -> i < length ls ->
  firstn m (skipn (i * m) (concat ls)) = nth i ls [].
Proof.
  intros H. revert i. induction ls as [|l ls IH]; intros i Hi; [cbn in Hi; lia|].
  assert (Hl : length l = m) by (apply H; now left). destruct i as [|i].
  - cbn [Nat.mul skipn concat nth]. rewrite firstn_app, <- Hl, firstn_all, Nat.sub_diag. cbn [firstn]. apply app_nil_r.
  - cbn [concat nth]. replace (S i * m) with (length l + i * m) by lia. rewrite skipn_app.
    rewrite (skipn_all2 l) by lia. cbn [app]. replace (length l + i * m - length l) with (i * m) by lia.
    apply IH; [intros; apply H; now right|cbn in Hi; lia].
Qed.
Definition pad {B} (ninf : B) (m : nat) (l : list B) : list B := l ++ repeat ninf (m - length l).
Lemma mask_set_prefix {B} (ninf : B) m l : length l <= m ->
  mask_set (map (fun j => j <? length l) (seq 0 m)) (repeat ninf m) l = pad ninf m l.
Proof.
  unfold pad. revert m. induction l as [|x l IH]; intros m H.
  - cbn [length app]. rewrite Nat.sub_0_r. assert (E : forall a, mask_set (map (fun j => j <? 0) (seq a m)) (repeat ninf m) [] = repeat ninf m).
    { clear. induction m as [|m IH]; intros a; [reflexivity|]. cbn. f_equal. apply IH. }
    apply E.
  - destruct m as [|m]; [cbn in H; lia|]. cbn [seq map repeat mask_set length app Nat.sub]. cbn [Nat.ltb Nat.leb].
    f_equal. rewrite <- seq_shift, map_map. apply IH. cbn in H. lia.
Qed.
Lemma mask_set_rows {B} (ninf : B) m (ls : list (list B)) : (forall l, In l ls -> length l <= m) ->
  mask_set (state_mask m (map (@length B) ls)) (repeat ninf (length ls * m)) (concat ls) = concat (map (pad ninf m) ls).
Proof.
  intros H. induction ls as [|l ls IH]; [reflexivity|]. unfold state_mask in *. cbn [map flat_map concat length].
  replace (repeat ninf (S (length ls) * m)) with (repeat ninf m ++ repeat ninf (length ls * m)) by (rewrite <- repeat_app; f_equal; lia).
  assert (Hl : length l <= m) by (apply H; now left).
  rewrite mask_set_app.
  - rewrite IH by (intros; apply H; now right). f_equal. now apply mask_set_prefix.
  - now rewrite map_length, seq_length, repeat_length.
  - assert (C : forall a k, count_occ Bool.bool_dec (map (fun j => j <? a + k) (seq a m)) true = Nat.min k m).
    { clear. induction m as [|m IH]; intros a k; [cbn; lia|]. cbn [seq map count_occ].
      destruct k as [|k].
      - rewrite Nat.add_0_r. destruct (Nat.ltb_spec a a); [lia|]. destruct (Bool.bool_dec false true); [discriminate|].
        rewrite (map_ext_in _ (fun j => j <? S a + 0)); [rewrite IH; lia|]. intros j Hj. apply in_seq in Hj. destruct (Nat.ltb_spec j a), (Nat.ltb_spec j (S a + 0)); lia || reflexivity.
      - destruct (Nat.ltb_spec a (a + S k)); [|lia]. destruct (Bool.bool_dec true true); [|contradiction].
        replace (a + S k) with (S a + k) by lia. rewrite IH. lia. }
    specialize (C 0 (length l)). cbn [Nat.add] in C. rewrite C. lia.
Qed.

(** ** unflatten *)
Lemma forallb_one l : forallb (Nat.eqb 1) l = true <-> forall n, In n l -> n = 1.
Proof. rewrite forallb_forall. split; intros H n Hn; specialize (H n Hn); [apply Nat.eqb_eq in H; lia|subst; reflexivity]. Qed.
Lemma sum_ones l : (forall n, In n l -> 0 < n) -> list_sum l = length l <-> forall n, In n l -> n = 1.
Proof.
  intros Hp. split.
  - induction l as [|x l IH]; intros E n Hn; [destruct Hn|].
    assert (Hx : 0 < x) by (apply Hp; now left). pose proof (list_sum_ge_length l (fun n Hn => Hp n (or_intror Hn))) as G.
    cbn [list_sum fold_right length] in E. fold (list_sum l) in E.
    destruct Hn as [<-|Hn]; [lia|]. apply IH; [intros; apply Hp; now right|lia|exact Hn].
  - intros H. induction l as [|x l IH]; [reflexivity|]. cbn [list_sum fold_right length]. fold (list_sum l).
    rewrite (H x) by now left. rewrite IH; [reflexivity| |]; intros; [apply Hp|apply H]; now right.
Qed.

Lemma list_sum_const {X} (m : nat) (l : list X) : list_sum (map (fun _ => m) l) = length l * m.
Proof. induction l as [|x l IH]; [reflexivity|]. cbn [map list_sum fold_right length]. fold (list_sum (map (fun _ => m) l)). rewrite IH. lia. Qed.
Lemma unflatten_rows {B} (ninf : B) g (rs : list (list B)) :
  constructed g -> (forall n, In n (vg_num_states g) -> 0 < n) -> map (@length B) rs = vg_num_states g ->
  exists d, vg_unflatten ninf g (vec (concat rs)) = Ok d /\ per_state_shape g d /\
    forall i, i < length rs -> row g d i = pad ninf (state_axis g i) (nth i rs []).
Proof.
  intros Hc Hpos Hrs.
  assert (Lr : length rs = length (vg_num_states g)) by (rewrite <- Hrs, map_length; reflexivity).
  assert (Lc : length (concat rs) = list_sum (vg_num_states g)) by (rewrite concat_length, Hrs; reflexivity).
  pose proof (constructed_wf g Hc) as Hw.
  destruct g as [v|v]; cbn [vg_num_states wf_group vg_unflatten] in *.
  - set (m := nat_max (va_num_states v)).
    assert (Hle : forall l, In l rs -> length l <= m).
    { intros l Hl. apply nat_max_ge. rewrite <- Hrs. now apply in_map. }
    assert (Hpl : forall l, In l (map (pad ninf m) rs) -> length l = m).
    { intros l Hl. apply in_map_iff in Hl. destruct Hl as [l' [<- Hl']]. unfold pad. rewrite app_length, repeat_length. specialize (Hle _ Hl'). lia. }
    assert (Hrow : forall a i, data a = concat (map (pad ninf m) rs) -> i < length rs -> row (VA v) (DArr a) i = pad ninf m (nth i rs [])).
    { intros a i Ea Hi. cbn [row]. fold m. rewrite Ea, chunk; [|exact Hpl|now rewrite map_length]. now rewrite (nth_map _ _ _ _ []) by exact Hi. }
    assert (Ld : length (concat (map (pad ninf m) rs)) = length rs * m).
    { rewrite concat_length, (map_ext_in _ (fun _ => m)) by exact Hpl. rewrite list_sum_const. now rewrite map_length. }
    assert (Em : m = nat_max (va_num_states v)) by reflexivity.
    unfold va_unflatten. cbn [vec shape data length]. cbn [Nat.eqb negb]. rewrite Lc.
    destruct (Nat.eqb_spec (list_sum (va_num_states v)) (prod (va_shape v))) as [E|E].
    + assert (Ones : forall n, In n (va_num_states v) -> n = 1) by (apply sum_ones; [exact Hpos|congruence]).
      assert (Er : concat rs = concat (map (pad ninf m) rs)).
      { f_equal. rewrite <- (map_id rs) at 1. apply map_ext_in. intros l Hl. unfold pad.
        assert (H1 : length l = 1) by (apply Ones; rewrite <- Hrs; now apply in_map).
        assert (Hm : m <= 1).
        { unfold m. destruct (va_num_states v) as [|n0 r] eqn:En; [cbn; lia|]. rewrite (Ones (nat_max (n0 :: r))); [lia|]. apply nat_max_In. discriminate. }
        replace (m - length l) with 0 by lia. symmetry. apply app_nil_r. }
      eexists. split; [reflexivity|]. split.
      * cbn [per_state_shape one_state]. rewrite (proj2 (forallb_one _) Ones). split; [|reflexivity]. unfold wf_arr. cbn. congruence.
      * intros i Hi. now apply Hrow.
    + rewrite Nat.eqb_refl. assert (Hne : va_num_states v <> []) by (intros En; apply E; rewrite En in *; cbn; cbn in Hw; congruence).
      clearbody m. replace (match va_num_states v with [] => Raise ValueError | _ :: _ => Ok (mkArr (va_shape v ++ [nat_max (va_num_states v)]) (mask_set (state_mask (nat_max (va_num_states v)) (va_num_states v)) (repeat ninf (prod (va_shape v) * nat_max (va_num_states v))) (concat rs))) end)
        with (Ok (mkArr (va_shape v ++ [nat_max (va_num_states v)]) (mask_set (state_mask (nat_max (va_num_states v)) (va_num_states v)) (repeat ninf (prod (va_shape v) * nat_max (va_num_states v))) (concat rs)))) by (destruct (va_num_states v); [contradiction|reflexivity]). cbn [bind].
      eexists. split; [reflexivity|].
      assert (Ed : mask_set (state_mask m (va_num_states v)) (repeat ninf (prod (va_shape v) * m)) (concat rs) = concat (map (pad ninf m) rs)).
      { rewrite <- Hrs. replace (prod (va_shape v)) with (length rs) by congruence. now apply mask_set_rows. }
      split.
      * cbn [per_state_shape one_state]. destruct (forallb (Nat.eqb 1) (va_num_states v)) eqn:Eo.
        -- exfalso. apply E. rewrite <- Hw. apply sum_ones; [exact Hpos|]. now apply forallb_one.
        -- split; [|reflexivity]. unfold wf_arr. cbn [data shape]. rewrite <- Em, Ed, Ld.
           assert (Pa : forall s, prod (s ++ [m]) = prod s * m) by (clear; induction s as [|x s IH]; cbn; [lia|rewrite IH; lia]).
           rewrite Pa. congruence.
      * intros i Hi. cbn [state_axis]. rewrite <- Em. apply Hrow; [exact Ed|exact Hi].
  - destruct Hc as (id & ns & names & Hwn & Hnd & Hv). destruct (VarDict_inv _ _ _ _ Hwn Hv) as [_ [Hn _]]. rewrite <- Hn in Hnd. clear id ns names Hwn Hv Hn.
    unfold vd_unflatten. cbn [vec shape data length]. cbn [Nat.eqb negb]. rewrite Lc.
    assert (G : forall b : bool, (b = false -> forall n, In n (vd_num_states v) -> n = 1) ->
      let dd := snd (fold_left (vd_unflatten_step v b (concat rs)) (vd_names v) (0, [])) in
      per_state_shape (VD v) (DMap dd) /\ forall i, i < length rs -> row (VD v) (DMap dd) i = pad ninf (state_axis (VD v) i) (nth i rs [])).
    { intros b Hb dd. set (w := fun x => match index_of x (vd_names v) with Some i => nth i (vd_num_states v) 0 | None => 0 end).
      assert (Ew : map w (vd_names v) = vd_num_states v) by now apply map_index_num_states.
      assert (Hwx : forall x, In x (vd_names v) -> w x = if b then match index_of x (vd_names v) with Some i => nth i (vd_num_states v) 0 | None => 0 end else 1).
      { intros x Hx. destruct b; [reflexivity|]. apply (Hb eq_refl). rewrite <- Ew. now apply in_map. }
      unfold dd. rewrite (vd_unflatten_loop v b (concat rs) w (vd_names v) 0 []); auto. cbn [snd app]. rewrite Ew.
      assert (Wi : forall i, i < length (vd_names v) -> w (nth i (vd_names v) 0%Z) = nth i (vd_num_states v) 0).
      { intros i Hi. rewrite <- Ew. now rewrite (nth_map _ _ _ _ 0%Z) by exact Hi. }
      set (h := fun i => mkArr [if b then length (slice (concat rs) (0 + off (vd_num_states v) i) (0 + off (vd_num_states v) i + w (nth i (vd_names v) 0%Z))) else 1]
         (slice (concat rs) (0 + off (vd_num_states v) i) (0 + off (vd_num_states v) i + w (nth i (vd_names v) 0%Z)))).
      assert (Hs : forall i, i < length (vd_names v) -> slice (concat rs) (0 + off (vd_num_states v) i) (0 + off (vd_num_states v) i + w (nth i (vd_names v) 0%Z)) = nth i rs []
        /\ length (nth i rs []) = nth i (vd_num_states v) 0).
      { intros i Hi. assert (Li : length (nth i rs []) = nth i (vd_num_states v) 0).
        { rewrite <- Hrs. rewrite (nth_map _ _ _ _ []) by lia. reflexivity. }
        split; [|exact Li]. rewrite Wi by exact Hi. rewrite <- Li. cbn [Nat.add]. rewrite <- Hrs. apply concat_slice. lia. }
      assert (Hg : forall i, i < length (vd_names v) -> dget Z.eqb (nth i (vd_names v) 0%Z) (map (fun j => (nth j (vd_names v) 0%Z, h j)) (seq 0 (length (vd_names v)))) = Some (h i)).
      { intros i Hi. apply dget_map_nodup; [|lia]. rewrite <- list_ext_seq. exact Hnd. }
      change (map _ (seq 0 (length (vd_names v)))) with (map (fun j => (nth j (vd_names v) 0%Z, h j)) (seq 0 (length (vd_names v)))).
      split.
      - cbn [per_state_shape]. split.
        + rewrite map_map. cbn [fst]. symmetry. apply list_ext_seq.
        + intros i x Hx. assert (Hi : i < length (vd_names v)) by (apply nth_error_Some; congruence).
          rewrite <- (nth_error_nth _ _ 0%Z Hx). exists (h i). split; [now apply Hg|]. destruct (Hs i Hi) as [Es Ls].
          unfold h, wf_arr. rewrite Es. cbn [data shape prod]. assert (Eb : (if b then length (nth i rs []) else 1) = length (nth i rs [])).
          { destruct b; [reflexivity|]. symmetry. rewrite Ls. apply (Hb eq_refl). apply nth_In. lia. }
          rewrite Eb, Ls. split; [lia|reflexivity].
      - intros i Hi. cbn [row state_axis]. rewrite Hg by lia. unfold h. cbn [data]. destruct (Hs i) as [Es Ls]; [lia|]. rewrite Es. unfold pad.
        rewrite Ls, Nat.sub_diag. symmetry. apply app_nil_r. }
    destruct (Nat.eqb_spec (list_sum (vd_num_states v)) (length (vd_names v))) as [E|E].
    + destruct (G false) as [G1 G2]; [intros _; apply sum_ones; [exact Hpos|congruence]|]. cbn [bind]. eexists. split; [reflexivity|]. now split.
    + rewrite Nat.eqb_refl. destruct (G true) as [G1 G2]; [discriminate|]. cbn [bind]. eexists. split; [reflexivity|]. now split.
Qed.

(** ** get_beliefs *)
Lemma beliefs_fold (flat : list (ext R)) (grow : vgroup -> list (list (ext R))) gs start acc :
  groups_ok gs -> (forall gr, In gr gs -> (forall n, In n (vg_num_states gr) -> 0 < n) /\ map (@length _) (grow gr) = vg_num_states gr) ->
  skipn start flat = concat (map (fun gr => concat (grow gr)) gs) ->
  (forall gr, In gr gs -> dget vg_eqb gr acc = None) ->
  exists ds end_, Forall2 (fun gr d => per_state_shape gr d /\
      forall i, i < length (grow gr) -> row gr d i = pad NInf (state_axis gr i) (nth i (grow gr) [])) gs ds /\
    fold_left (beliefs_step flat) gs (Ok (start, acc)) = Ok (end_, acc ++ combine gs ds).
Proof.
  revert start acc. induction gs as [|gr gs IH]; intros start acc Hok Hg Hs Hacc.
  - exists [], start. split; [constructor|]. cbn. now rewrite app_nil_r.
  - apply groups_ok_cons in Hok. destruct Hok as [Hc [_ [Hd Hok]]]. destruct (Hg gr (or_introl eq_refl)) as [Hp Hl].
    destruct (unflatten_rows NInf gr (grow gr) Hc Hp Hl) as [d [Ed [Sd Rd]]].
    assert (Ll : length (concat (grow gr)) = list_sum (vg_num_states gr)) by (rewrite concat_length, Hl; reflexivity).
    cbn [map concat] in Hs.
    assert (Es : slice flat start (start + list_sum (vg_num_states gr)) = concat (grow gr)).
    { unfold slice. rewrite Hs. replace (start + list_sum (vg_num_states gr) - start) with (length (concat (grow gr)) + 0) by lia. rewrite firstn_app_2. cbn [firstn]. apply app_nil_r. }
    destruct (IH (start + list_sum (vg_num_states gr)) (acc ++ [(gr, d)])) as [ds [e [Hds Hf]]].
    + exact Hok.
    + intros; apply Hg; now right.
    + rewrite <- skipn_skipn', Hs, <- Ll. rewrite skipn_app, skipn_all, Nat.sub_diag. reflexivity.
    + intros h Hh. rewrite dget_app, Hacc by (now right). cbn [dget]. destruct (vg_eqb h gr) eqn:E; [|reflexivity].
      apply vg_eqb_ids in E. rewrite Forall_forall in Hd. specialize (Hd h Hh). congruence.
    + exists (d :: ds), e. split; [constructor; [now split|exact Hds]|].
      cbn [fold_left combine]. unfold beliefs_step at 2. cbn [bind fst snd]. rewrite Es, Ed. cbn [bind].
      rewrite dset_length_new by (apply Hacc; now left). rewrite Hf, <- app_assoc. reflexivity.
Qed.
Lemma dget_combine {B} gs (ds : list (gdata B)) k gr d : groups_ok gs -> length ds = length gs -> nth_error gs k = Some gr -> nth_error ds k = Some d ->
  dget vg_eqb gr (combine gs ds) = Some d.
Proof.
  revert ds k. induction gs as [|g gs IH]; intros [|d0 ds] k Hok Hl Hg Hd; try (destruct k; discriminate).
  apply groups_ok_cons in Hok. destruct Hok as [_ [_ [Hdi Hok]]]. cbn [combine dget]. destruct k as [|k]; cbn in Hg, Hd.
  - injection Hg as ->. injection Hd as ->. unfold vg_eqb. now rewrite Z.eqb_refl.
  - destruct (vg_eqb gr g) eqn:E; [|apply (IH ds k); auto].
    apply vg_eqb_ids in E. rewrite Forall_forall in Hdi. specialize (Hdi gr (nth_error_In _ _ Hg)). congruence.
Qed.
Lemma combine_fst {X Y} (xs : list X) (ys : list Y) : length ys = length xs -> map fst (combine xs ys) = xs.
Proof. revert ys. induction xs as [|x xs IH]; intros [|y ys] H; try discriminate; [reflexivity|]. cbn. now rewrite IH by (injection H; auto). Qed.

Section Beliefs.
  Context (vgs : list vgroup) (g : fgraph R) (T : R) (c : bp_ctx R).
  Hypothesis Hok : groups_ok vgs.
  Hypothesis Hr : reachable vgs g.
  Hypothesis Hwf : wf_groups (gr_groups g).
  Hypothesis Hbp : bp_of g T c.
  Context (a : bp_arrays R).
  Hypothesis Ha : arrays_of c a.
  Hypothesis Hpos : forall gr n, In gr vgs -> In n (vg_num_states gr) -> 0 < n.
  Let fs := graph_factors 0%R (gr_groups g).
  Let belief := text_belief fs (read_ev (gr_vars_to_starts g) (ba_evidence a)) (read_msgs fs (ba_ftov_msgs a)).

  Lemma flat_read x s : In x (all_vars vgs) -> s < snd x ->
    nth (start_of (gr_vars_to_starts g) x + s) (flat_beliefs c a) 0%R = belief x s.
  Proof.
    intros Hx Hs. unfold flat_beliefs. destruct (ctx_fields vgs g T c Hok Hr Hwf Hbp) as [_ [_ [_ [F4 _]]]]. rewrite F4.
    destruct (arrays_lengths vgs g T c Hok Hr Hwf Hbp a Ha) as [_ [L2 L3]].
    assert (Known : forall y, In y (x :: sf_edges fs) -> exists t, dget var_eqb y (gr_vars_to_starts g) = Some t).
    { intros y [<-|Hy].
      - destruct (reachable_layout _ _ Hok Hr) as [_ [-> _]]. apply In_nth_error in Hx. destruct Hx as [k Hk].
        exists (off (map snd (all_vars vgs)) k). apply dget_layout; [now apply all_vars_NoDup|exact Hk].
      - destruct Hbp as [junk [bs [Hc _]]]. destruct (compiled_edges _ _ _ Hwf Hc) as [K1 _]. rewrite <- (graph_edges (gr_groups g)) in K1. now apply K1. }
    assert (Hlay : disjoint_layout (gr_vars_to_starts g) (x :: sf_edges fs) (length (ba_evidence a))).
    { destruct (C06_lemma _ _ Hok Hr) as [_ [C2 [C3 _]]]. split.
      - intros y Hy. destruct (Known y Hy) as [t Et]. unfold start_of. rewrite Et. rewrite L3. now apply C2.
      - intros y z Hy Hz Hyz. destruct (Known y Hy) as [t Et]. destruct (Known z Hz) as [t' Et']. unfold start_of. rewrite Et, Et'. eapply C3; eassumption. }
    fold fs. rewrite (nth_var_sums_any _ _ _ _ _ _ _ Hlay L2 (Nat.le_refl _) Hs).
    unfold belief, text_belief. f_equal. now rewrite slots_of_edges, map_map.
  Qed.
  Definition vrow (x : variable) : list (ext R) := map (fun s => Fin (belief x s)) (seq 0 (snd x)).
  Lemma flat_rows : map Fin (flat_beliefs c a) = concat (map vrow (all_vars vgs)).
  Proof.
    destruct (arrays_lengths vgs g T c Hok Hr Hwf Hbp a Ha) as [_ [_ L3]].
    destruct (reachable_layout _ _ Hok Hr) as [_ [El En]]. unfold num_states_total in En.
    assert (Lf : length (flat_beliefs c a) = list_sum (map snd (all_vars vgs))) by (unfold flat_beliefs; rewrite scatter_length; congruence).
    rewrite (flat_as_map (map snd (all_vars vgs)) _ Lf) at 1. rewrite map_map.
    unfold positions. rewrite map_length. rewrite flat_map_concat_map, concat_map, map_map. f_equal.
    rewrite (list_ext_seq (all_vars vgs) (0%Z, 0)) at 2. rewrite map_map. apply map_ext_in. intros k Hk. apply in_seq in Hk.
    rewrite map_map. unfold vrow. rewrite nth_states by lia. apply map_ext_in. intros s Hs. apply in_seq in Hs. cbn [fst snd]. f_equal.
    rewrite <- flat_read; [|apply nth_In; lia|lia]. f_equal. f_equal. unfold start_of. rewrite El.
    rewrite (dget_layout _ k); [reflexivity|now apply all_vars_NoDup|apply nth_error_nth'; lia].
  Qed.

  Lemma C33_lemma : exists b, get_beliefs c a = Ok b /\ map fst b = vgs /\
    forall gr, In gr vgs -> exists d, dget vg_eqb gr b = Some d /\ per_state_shape gr d /\
      forall i x, nth_error (vg_variables gr) i = Some x ->
        row gr d i = map (fun s => Fin (belief x s)) (seq 0 (snd x)) ++ repeat NInf (state_axis gr i - snd x).
  Proof.
    assert (Hvg : st_variable_groups (bs_fg_state (bc_state c)) = vgs).
    { destruct Hbp as [junk [bs [Hc HB]]]. destruct (BP_fields _ _ _ HB) as [E1 _]. rewrite E1. apply (compile_fg_state_layout _ _ _ _ Hok Hr Hc). }
    unfold get_beliefs, unflatten_beliefs. rewrite Hvg.
    set (grow := fun gr => map vrow (vg_variables gr)).
    assert (Lg : forall gr, In gr vgs -> map (@length (ext R)) (grow gr) = vg_num_states gr).
    { intros gr Hg. unfold grow. rewrite map_map. rewrite <- (vg_variables_snd gr) by (now apply (groups_ok_wf vgs)).
      apply map_ext. intros x. unfold vrow. now rewrite map_length, seq_length. }
    destruct (beliefs_fold (map Fin (flat_beliefs c a)) grow vgs 0 [] Hok) as [ds [e [Hds Hf]]].
    - intros gr Hg. split; [intros n; now apply Hpos|now apply Lg].
    - cbn [skipn]. rewrite flat_rows. unfold all_vars, grow. clear. induction vgs as [|gr gs IH]; [reflexivity|]. cbn [map concat]. now rewrite map_app, concat_app, IH.
    - reflexivity.
    - rewrite Hf. cbn [bind snd app]. exists (combine vgs ds). split; [reflexivity|].
      assert (Ld : length ds = length vgs) by (symmetry; eapply Forall2_len; exact Hds).
      split; [now apply combine_fst|]. intros gr Hg. apply In_nth_error in Hg. destruct Hg as [k Hk].
      assert (Hkl : k < length vgs) by (apply nth_error_Some; congruence).
      destruct (nth_error ds k) as [d|] eqn:Ed; [|apply nth_error_None in Ed; lia]. exists d.
      split; [now apply (dget_combine vgs ds k)|].
      assert (P : per_state_shape gr d /\ forall i, i < length (grow gr) -> row gr d i = pad NInf (state_axis gr i) (nth i (grow gr) [])).
      { clear - Hds Hk Ed. revert k Hk Ed. induction Hds as [|x y l l' Hxy Hds IH]; intros k Hk Ed; [destruct k; discriminate|].
        destruct k as [|k]; cbn in Hk, Ed; [injection Hk as ->; injection Ed as ->; exact Hxy|now apply (IH k)]. }
      destruct P as [P1 P2]. split; [exact P1|]. intros i x Hi.
      assert (Hil : i < length (vg_variables gr)) by (apply nth_error_Some; congruence).
      rewrite P2 by (unfold grow; now rewrite map_length). unfold grow. rewrite (nth_map _ _ _ _ (0%Z, 0)) by exact Hil.
      rewrite (nth_error_nth _ _ _ Hi). unfold pad, vrow. now rewrite map_length, seq_length.
  Qed.
End Beliefs.

(** ** Functions along the state axis *)
Lemma along_last_ok {B} (f : list (ext R) -> B) (a : ndarray (ext R)) s m : shape a = s ++ [m] -> 0 < m ->
  along_last f a = Ok (mkArr s (map f (rows (prod s) m (data a)))).
Proof.
  intros Hs Hm. unfold along_last. rewrite Hs, rev_app_distr. cbn [rev app]. rewrite rev_involutive. destruct m; [lia|reflexivity].
Qed.
Lemma prod_snoc s m : prod (s ++ [m]) = prod s * m.
Proof. induction s as [|x s IH]; cbn; [lia|rewrite IH; lia]. Qed.
Lemma one_state_pos v : (forall n, In n (va_num_states v) -> 0 < n) -> one_state (VA v) = false -> 0 < nat_max (va_num_states v).
Proof.
  cbn [one_state]. intros Hp H. destruct (va_num_states v) as [|n l] eqn:E; [discriminate|].
  pose proof (nat_max_ge (n :: l) n (or_introl eq_refl)). specialize (Hp n (or_introl eq_refl)). lia.
Qed.
Lemma firstn1_skipn {X} (l : list X) i d : i < length l -> firstn 1 (skipn i l) = [nth i l d].
Proof.
  revert i. induction l as [|x l IH]; intros i Hi; [cbn in Hi; lia|]. destruct i as [|i]; [reflexivity|]. cbn [skipn nth]. apply IH. cbn in Hi. lia.
Qed.
Lemma row_slice {X} (l : list X) i m : firstn m (skipn (i * m) l) = slice l (i * m) (i * m + m).
Proof. unfold slice. f_equal. lia. Qed.
Lemma mapM_pairs {K X Y} (eqb : K -> K -> bool) (h : X -> res Y) (m : list (K * X)) m' :
  mapM (fun kv => y <- h (snd kv) ;; Ok (fst kv, y)) m = Ok m' ->
  map fst m' = map fst m /\
  forall k x, dget eqb k m = Some x -> exists y, h x = Ok y /\ dget eqb k m' = Some y.
Proof.
  revert m'. induction m as [|[k0 x0] m IH]; intros m' H; cbn [mapM fst snd] in H.
  - injection H as <-. split; [reflexivity|discriminate].
  - destruct (h x0) as [y0|] eqn:E; cbn [bind] in H; [|discriminate].
    destruct (mapM _ m) as [m1|] eqn:Em; cbn [bind] in H; [|discriminate]. injection H as <-.
    destruct (IH m1 eq_refl) as [I1 I2]. split; [cbn; now rewrite I1|]. intros k x. cbn [dget].
    destruct (eqb k k0); [|apply I2]. intros F. injection F as <-. now exists y0.
Qed.
Lemma mapM_total {K X Y} (h : X -> res Y) (m : list (K * X)) : (forall k x, In (k, x) m -> exists y, h x = Ok y) ->
  exists m', mapM (fun kv => y <- h (snd kv) ;; Ok (fst kv, y)) m = Ok m'.
Proof.
  intros H. induction m as [|[k0 x0] m IH]; [now exists []|]. destruct (H k0 x0 (or_introl eq_refl)) as [y Ey].
  destruct IH as [m' Em]; [intros; apply (H k); now right|]. exists ((k0, y) :: m'). cbn [mapM fst snd]. rewrite Ey. cbn [bind]. now rewrite Em.
Qed.
Lemma dget_pair_nodup {X} (m : list (Z * X)) k x : NoDup (map fst m) -> In (k, x) m -> dget Z.eqb k m = Some x.
Proof.
  induction m as [|[k0 x0] m IH]; [contradiction|]. cbn [map fst]. intros Hn [E|Hin]; inversion Hn as [|? ? N1 N2]; subst; cbn [dget].
  - injection E as -> ->. now rewrite Z.eqb_refl.
  - destruct (Z.eqb_spec k k0) as [->|]; [|now apply IH]. exfalso. apply N1. apply in_map_iff. now exists (k0, x).
Qed.
Lemma vd_names_nodup v : constructed (VD v) -> NoDup (vd_names v).
Proof. intros (id & ns & names & Hwn & Hnd & Hv). destruct (VarDict_inv _ _ _ _ Hwn Hv) as [_ [Hn _]]. now rewrite Hn. Qed.
Lemma nvars_length gr : wf_group gr -> length (vg_variables gr) = length (vg_num_states gr).
Proof. intros H. now rewrite <- (vg_variables_snd gr H), map_length. Qed.

(** Any array function that acts on the rows of a group's data. *)
Lemma group_rows_map {B} (F : ndarray (ext R) -> res (ndarray B)) (S : list nat -> list nat -> Prop) gr d :
  constructed gr -> per_state_shape gr d ->
  (forall a, wf_arr a -> (match gr with VA v => shape a = va_shape v ++ [nat_max (va_num_states v)] | VD v => exists i, i < length (vd_names v) /\ shape a = [nth i (vd_num_states v) 0] end) ->
     exists y, F a = Ok y /\ wf_arr y /\ S (shape a) (shape y)) ->
  one_state gr = false ->
  exists d', map_gdata F d = Ok d' /\
   match gr, d, d' with
   | VA v, DArr a, DArr y => F a = Ok y /\ wf_arr a /\ wf_arr y /\ shape a = va_shape v ++ [nat_max (va_num_states v)] /\ S (shape a) (shape y)
   | VD v, DMap m, DMap m' => map fst m' = vd_names v /\ forall i, i < length (vd_names v) ->
       exists a y, dget Z.eqb (nth i (vd_names v) 0%Z) m = Some a /\ dget Z.eqb (nth i (vd_names v) 0%Z) m' = Some y /\ F a = Ok y /\
         wf_arr a /\ wf_arr y /\ shape a = [nth i (vd_num_states v) 0] /\ S (shape a) (shape y)
   | _, _, _ => False
   end.
Proof.
  intros Hc Hd HF H1. destruct gr as [v|v]; destruct d as [a|m]; try contradiction; cbn [per_state_shape] in Hd.
  - rewrite H1 in Hd. destruct Hd as [W E]. destruct (HF a W E) as [y [Ey [Wy Sy]]].
    exists (DArr y). cbn [map_gdata]. rewrite Ey. cbn [bind]. auto 6.
  - destruct Hd as [E1 E2]. pose proof (vd_names_nodup v Hc) as Hnd.
    destruct (mapM_total F m) as [m' Em].
    { intros k x Hin. assert (Hk : In k (vd_names v)) by (rewrite <- E1; apply in_map_iff; now exists (k, x)).
      apply In_nth_error in Hk. destruct Hk as [i Hi]. destruct (E2 i k Hi) as [a [Ea [Wa Sa]]].
      rewrite (dget_pair_nodup m k x) in Ea by (rewrite ?E1; assumption). injection Ea as ->.
      destruct (HF a Wa) as [y [Ey _]]; [|now exists y]. exists i. split; [apply nth_error_Some; congruence|exact Sa]. }
    exists (DMap m'). cbn [map_gdata]. rewrite Em. cbn [bind]. split; [reflexivity|].
    destruct (mapM_pairs Z.eqb F m m' Em) as [P1 P2]. split; [congruence|]. intros i Hi.
    destruct (E2 i (nth i (vd_names v) 0%Z)) as [a [Ea [Wa Sa]]]; [now apply nth_error_nth'|].
    destruct (P2 _ _ Ea) as [y [Ey Dy]]. exists a, y. destruct (HF a Wa) as [y' [Ey' [Wy Sy]]]; [now exists i|].
    rewrite Ey in Ey'. injection Ey' as <-. auto 9.
Qed.

Lemma along_last_gdata {B} (f : list (ext R) -> B) gr d :
  constructed gr -> (forall n, In n (vg_num_states gr) -> 0 < n) -> one_state gr = false -> per_state_shape gr d ->
  exists d', map_gdata (along_last f) d = Ok d' /\ per_var_shape gr d' /\
    forall i, i < length (vg_variables gr) -> cell gr d' i = [f (row gr d i)].
Proof.
  intros Hc Hp H1 Hd. pose proof (constructed_wf gr Hc) as Hw.
  destruct (group_rows_map (along_last f) (fun s t => exists m, s = t ++ [m]) gr d Hc Hd) as [d' [E P]]; [|exact H1|].
  - intros a Wa. destruct gr as [v|v]; cbn [vg_num_states] in Hp.
    + intros Ea. rewrite (along_last_ok f a _ _ Ea (one_state_pos v Hp H1)). eexists. split; [reflexivity|]. split; [|eexists; exact Ea].
      unfold wf_arr. cbn [data shape]. now rewrite map_length, rows_length.
    + intros [i [Hi Ea]]. assert (Hn : 0 < nth i (vd_num_states v) 0) by (apply Hp, nth_In; cbn in Hw; lia).
      rewrite (along_last_ok f a [] _ Ea Hn). eexists. split; [reflexivity|]. split; [reflexivity|eexists; exact Ea].
  - exists d'. split; [exact E|]. rewrite (nvars_length gr Hw).
    destruct gr as [v|v]; destruct d as [a|m]; destruct d' as [y|m']; try contradiction; cbn [vg_num_states wf_group] in *.
    + destruct P as [Ey [Wa [Wy [Sa [m Sy]]]]]. assert (Es : shape y = va_shape v) by (rewrite Sa in Sy; now apply app_inj_tail in Sy).
      split; [now split|]. intros i Hi. cbn [cell row].
      rewrite (along_last_ok f a _ _ Sa (one_state_pos v Hp H1)) in Ey. injection Ey as <-. cbn [data].
      rewrite (firstn1_skipn _ _ (f [])) by (rewrite map_length, rows_length; congruence).
      rewrite (nth_map _ _ _ _ []) by (rewrite rows_length; congruence). rewrite nth_rows by congruence. now rewrite row_slice.
    + destruct P as [P1 P2]. split.
      * split; [exact P1|]. intros x Hx. apply (In_nth _ _ 0%Z) in Hx. destruct Hx as [i [Hi <-]].
        destruct (P2 i Hi) as [a [y [_ [Dy [_ [_ [Wy [Sa [k Sk]]]]]]]]]. exists y. split; [exact Dy|]. split; [exact Wy|].
        rewrite Sa in Sk. destruct (shape y) as [|? [|]]; [reflexivity|discriminate|discriminate].
      * intros i Hi. cbn [cell row]. destruct (P2 i) as [a [y [Da [Dy [Ey [Wa [_ [Sa _]]]]]]]]; [congruence|]. rewrite Da, Dy.
        rewrite (along_last_ok f a [] _ Sa) in Ey by (apply Hp, nth_In; exact Hi). injection Ey as <-. cbn [data prod rows map]. f_equal. f_equal.
        unfold wf_arr in Wa. rewrite Sa in Wa. cbn [prod] in Wa. apply firstn_all2. lia.
Qed.

Lemma marginals_row_length (l : list (ext R)) : length (marginals_row l) = length l.
Proof. unfold marginals_row. apply map_length. Qed.
Lemma rows_lengths {X} n m (l : list X) r : length l = n * m -> In r (rows n m l) -> length r = m.
Proof.
  revert l. induction n as [|n IH]; intros l Hl Hr; [contradiction|]. cbn [rows] in Hr. destruct Hr as [<-|Hr].
  - rewrite firstn_length. lia.
  - apply (IH (skipn m l)); [rewrite skipn_length; lia|exact Hr].
Qed.
Lemma marginals_array_ok (a : ndarray (ext R)) s m : wf_arr a -> shape a = s ++ [m] -> 0 < m ->
  marginals_array a = Ok (mkArr (shape a) (concat (map marginals_row (rows (prod s) m (data a))))) /\
  forall r, In r (map marginals_row (rows (prod s) m (data a))) -> length r = m.
Proof.
  intros Wa Sa Hm. unfold marginals_array. rewrite (along_last_ok _ a s m Sa Hm). split; [reflexivity|].
  intros r Hr. apply in_map_iff in Hr. destruct Hr as [x [<- Hx]]. rewrite marginals_row_length. apply (rows_lengths (prod s) m (data a)); [|exact Hx].
  unfold wf_arr in Wa. now rewrite Wa, Sa, prod_snoc.
Qed.
Lemma marginals_gdata gr d :
  constructed gr -> (forall n, In n (vg_num_states gr) -> 0 < n) -> one_state gr = false -> per_state_shape gr d ->
  exists d', map_gdata (marginals_array (A := R)) d = Ok d' /\ per_state_shape gr d' /\
    forall i, i < length (vg_variables gr) -> row gr d' i = marginals_row (row gr d i).
Proof.
  intros Hc Hp H1 Hd. pose proof (constructed_wf gr Hc) as Hw.
  destruct (group_rows_map marginals_array (fun s t => s = t) gr d Hc Hd) as [d' [E P]]; [|exact H1|].
  - intros a Wa. assert (G : forall s m, shape a = s ++ [m] -> 0 < m -> exists y, marginals_array a = Ok y /\ wf_arr y /\ shape a = shape y).
    { intros s m Ea Hm. destruct (marginals_array_ok a s m Wa Ea Hm) as [Em Lm]. eexists. split; [exact Em|]. split; [|reflexivity].
      unfold wf_arr. cbn [data shape]. rewrite concat_length, (map_ext_in _ (fun _ => m)) by exact Lm. rewrite list_sum_const, map_length, rows_length, Ea. now rewrite prod_snoc. }
    destruct gr as [v|v]; cbn [vg_num_states] in Hp.
    + intros Ea. exact (G _ _ Ea (one_state_pos v Hp H1)).
    + intros [i [Hi Ea]]. apply (G [] _ Ea). apply Hp, nth_In. cbn in Hw. lia.
  - exists d'. split; [exact E|]. rewrite (nvars_length gr Hw).
    destruct gr as [v|v]; destruct d as [a|m]; destruct d' as [y|m']; try contradiction; cbn [vg_num_states wf_group] in *.
    + destruct P as [Ey [Wa [Wy [Sa Sy]]]].
      split; [split; [exact Wy|]; rewrite H1; congruence|]. intros i Hi. cbn [row].
      destruct (marginals_array_ok a _ _ Wa Sa (one_state_pos v Hp H1)) as [Em Lm]. rewrite Em in Ey. injection Ey as <-. cbn [data].
      rewrite chunk; [|exact Lm|rewrite map_length, rows_length; congruence]. rewrite (nth_map _ _ _ _ []) by (rewrite rows_length; congruence).
      rewrite nth_rows by congruence. now rewrite row_slice.
    + destruct P as [P1 P2]. split.
      * split; [exact P1|]. intros i x Hi. assert (Hl : i < length (vd_names v)) by (apply nth_error_Some; congruence).
        destruct (P2 i Hl) as [a [y [_ [Dy [_ [_ [Wy [Sa Sy]]]]]]]]. rewrite (nth_error_nth _ _ _ Hi) in Dy. exists y. rewrite <- Sy. auto.
      * intros i Hi. cbn [row]. destruct (P2 i) as [a [y [Da [Dy [Ey [Wa [_ [Sa _]]]]]]]]; [congruence|]. rewrite Da, Dy.
        destruct (marginals_array_ok a [] _ Wa Sa) as [Em _]; [apply Hp, nth_In; exact Hi|]. rewrite Em in Ey. injection Ey as <-.
        cbn [data prod rows map concat]. rewrite app_nil_r. f_equal. unfold wf_arr in Wa. rewrite Sa in Wa. cbn [prod] in Wa. apply firstn_all2. lia.
Qed.

(** ** Dictionaries of beliefs *)
Lemma dget_pair {X} (b : list (vgroup * gdata X)) gr d : groups_ok (map fst b) -> In (gr, d) b -> dget vg_eqb gr b = Some d.
Proof.
  intros Hok Hin. apply In_nth_error in Hin. destruct Hin as [k Hk].
  assert (Eb : b = combine (map fst b) (map snd b)) by (clear; induction b as [|[x y] b IH]; cbn; [reflexivity|now rewrite <- IH]).
  rewrite Eb. apply (dget_combine _ _ k); [exact Hok|now rewrite !map_length| |]; rewrite nth_error_map, Hk; reflexivity.
Qed.
Lemma map_beliefs_all {B} (F : ndarray (ext R) -> res (ndarray B)) b (P : vgroup -> gdata (ext R) -> gdata B -> Prop) :
  groups_ok (map fst b) -> (forall gr d, In (gr, d) b -> exists d', map_gdata F d = Ok d' /\ P gr d d') ->
  exists b', map_beliefs F b = Ok b' /\ map fst b' = map fst b /\
    forall gr d, dget vg_eqb gr b = Some d -> In gr (map fst b) -> exists d', dget vg_eqb gr b' = Some d' /\ P gr d d'.
Proof.
  intros Hok H. destruct (mapM_total (map_gdata F) b) as [b' Eb].
  { intros k x Hin. destruct (H k x Hin) as [y [Ey _]]. now exists y. }
  exists b'. split; [exact Eb|]. destruct (mapM_pairs vg_eqb (map_gdata F) b b' Eb) as [P1 P2]. split; [exact P1|].
  intros gr d Hd Hin. destruct (P2 gr d Hd) as [y [Ey Dy]]. exists y. split; [exact Dy|].
  apply in_map_iff in Hin. destruct Hin as [[g0 d0] [E0 Hin]]. cbn in E0. subst g0.
  pose proof (dget_pair b gr d0 Hok Hin) as E1. rewrite Hd in E1. injection E1 as <-.
  destruct (H gr d Hin) as [y' [Ey' Py]]. congruence.
Qed.

(** ** The state of largest belief *)
Lemma argmax_pad b bi i (l : list R) k : argmax_from (Fin b) bi i (map Fin l ++ repeat NInf k) = argmax_from (Fin b) bi i (map Fin l).
Proof.
  revert b bi i. induction l as [|x l IH]; intros b bi i.
  - cbn [map app]. revert i. induction k as [|k IH]; intros i; [reflexivity|]. cbn. apply IH.
  - cbn [map app argmax_from]. now rewrite !IH.
Qed.
Lemma argmax_from_best (l : list R) : forall b bi i, let r := argmax_from (Fin b) bi i (map Fin l) in
  (r = bi /\ forall t, t < length l -> (nth t l 0 <= b)%R) \/
  (exists k, k < length l /\ r = i + k /\ (b < nth k l 0)%R /\ (forall t, t < length l -> (nth t l 0 <= nth k l 0)%R) /\ forall t, t < k -> (nth t l 0 < nth k l 0)%R).
Proof.
  induction l as [|x l IH]; intros b bi i; cbn [map argmax_from ext_ltb]; [left; split; [reflexivity|cbn; lia]|].
  cbn [nltb RNum]. destruct (Rlt_dec b x) as [Hx|Hx].
  - destruct (IH x i (S i)) as [[E H]|[k [Hk [E [H1 [H2 H3]]]]]]; right.
    + exists 0. cbn [nth length]. split; [lia|]. split; [rewrite E; lia|]. split; [exact Hx|]. split; [|lia].
      intros [|t] Ht; [lra|]. apply H. lia.
    + exists (S k). cbn [nth length]. split; [lia|]. split; [rewrite E; lia|]. split; [lra|]. split.
      * intros [|t] Ht; [lra|]. apply H2. lia.
      * intros [|t] Ht; [lra|]. apply H3. lia.
  - destruct (IH b bi (S i)) as [[E H]|[k [Hk [E [H1 [H2 H3]]]]]].
    + left. split; [exact E|]. intros [|t] Ht; cbn [nth length] in *; [lra|]. apply H. lia.
    + right. exists (S k). cbn [nth length]. split; [lia|]. split; [rewrite E; lia|]. split; [lra|]. split.
      * intros [|t] Ht; [lra|]. apply H2. lia.
      * intros [|t] Ht; [lra|]. apply H3. lia.
Qed.
Lemma argmax_first_best (b : nat -> R) n k : 0 < n ->
  first_best b n (argmax (map (fun s => Fin (b s)) (seq 0 n) ++ repeat NInf k)).
Proof.
  intros Hn. destruct n as [|n]; [lia|]. rewrite <- (map_map b Fin). cbn [seq map app argmax]. rewrite argmax_pad.
  assert (N : forall t, t < n -> nth t (map b (seq 1 n)) 0%R = b (S t)).
  { intros t Ht. rewrite (nth_map _ _ _ _ 0) by (now rewrite seq_length). rewrite seq_nth by exact Ht. reflexivity. }
  destruct (argmax_from_best (map b (seq 1 n)) (b 0) 0 1) as [[E H]|[j [Hj [E [H1 [H2 H3]]]]]]; rewrite E; rewrite map_length, seq_length in *; split; [lia| |lia| ].
  - split; [|lia]. intros [|t] Ht; [lra|]. rewrite <- N by lia. apply H. lia.
  - change (1 + j) with (S j). rewrite <- (N j) by exact Hj. split.
    + intros [|t] Ht; [lra|]. rewrite <- N by lia. apply H2. lia.
    + intros [|t] Ht; [lra|]. rewrite <- N by lia. apply H3. lia.
Qed.

(** ** Marginals of one row *)
Definition ext_exp (x : ext R) : R := match x with NInf => 0%R | Fin a => exp a end.
Lemma fold_ext_max_fin (xs : list (ext R)) m : exists m', fold_left ext_max xs (Fin m) = Fin m'.
Proof.
  revert m. induction xs as [|x xs IH]; intros m; [now exists m|]. cbn [fold_left].
  assert (E : exists m1, ext_max (Fin m) x = Fin m1).
  { unfold ext_max. destruct x as [|a]; cbn [ext_ltb]; [now exists m|]. destruct (nltb m a); eexists; reflexivity. }
  destruct E as [m1 ->]. apply IH.
Qed.
Lemma fold_ext_max (xs : list (ext R)) a : In (Fin a) xs -> exists m, fold_left ext_max xs NInf = Fin m.
Proof.
  induction xs as [|x xs IH]; [contradiction|]. intros H. cbn [fold_left]. destruct x as [|b]; [change (ext_max NInf NInf) with (NInf (A := R))|change (ext_max NInf (Fin b)) with (Fin b)].
  - apply IH. destruct H as [H|H]; [discriminate|exact H].
  - apply fold_ext_max_fin.
Qed.
Lemma ext_exp_nonneg x : (0 <= ext_exp x)%R.
Proof. destruct x; cbn [ext_exp]; [lra|left; apply exp_pos]. Qed.
Lemma ext_exp_sum (xs : list (ext R)) a : In (Fin a) xs -> (0 < rsum (map ext_exp xs))%R.
Proof.
  intros H. apply Rlt_le_trans with (exp a); [apply exp_pos|]. induction xs as [|x xs IH]; [contradiction|]. cbn [map]. rewrite rsum_cons.
  assert (N : (0 <= rsum (map ext_exp xs))%R).
  { apply rsum_nonneg. intros y Hy. apply in_map_iff in Hy. destruct Hy as [z [<- _]]. apply ext_exp_nonneg. }
  destruct H as [->|H].
  - cbn [ext_exp]. lra.
  - specialize (IH H). pose proof (ext_exp_nonneg x). lra.
Qed.
Lemma exp_sub_div x m : ext_exp_sub x m = (ext_exp x / exp m)%R.
Proof.
  destruct x as [|a]; cbn [ext_exp_sub ext_exp].
  - change (n0 (A := R)) with 0%R. unfold Rdiv. now rewrite Rmult_0_l.
  - cbn [nexp nsub RNum]. unfold Rminus, Rdiv. now rewrite exp_plus, exp_Ropp.
Qed.
Lemma nsum_rsum (l : list R) : nsum l = rsum l.
Proof. induction l as [|x l IH]; [reflexivity|]. rewrite rsum_cons, <- IH. reflexivity. Qed.
Lemma logsumexp_eq (xs : list (ext R)) a : In (Fin a) xs -> logsumexp xs = ln (rsum (map ext_exp xs)).
Proof.
  intros H. unfold logsumexp. destruct (fold_ext_max xs a H) as [m ->]. rewrite nsum_rsum. cbn [nadd nln RNum].
  rewrite (map_ext _ (fun x => / exp m * ext_exp x)%R) by (intros x; rewrite exp_sub_div; unfold Rdiv; ring).
  rewrite rsum_scal. pose proof (exp_pos m). rewrite ln_mult; [|now apply Rinv_0_lt_compat|now apply (ext_exp_sum xs a)].
  rewrite ln_Rinv, ln_exp by exact H0. ring.
Qed.
Lemma marginals_row_eq (xs : list (ext R)) a : In (Fin a) xs ->
  marginals_row xs = map (fun x => ext_exp x / rsum (map ext_exp xs))%R xs.
Proof.
  intros H. unfold marginals_row. apply map_ext. intros x. rewrite exp_sub_div, (logsumexp_eq xs a H), exp_ln; [reflexivity|now apply (ext_exp_sum xs a)].
Qed.
Definition ext_add (k : R) (x : ext R) : ext R := match x with NInf => NInf | Fin a => Fin (a + k)%R end.
Lemma C35_row_lemma (xs : list (ext R)) a : In (Fin a) xs ->
  let p := marginals_row xs in
  length p = length xs /\ (forall y, In y p -> (0 <= y)%R) /\ rsum p = 1%R /\
  (forall i, nth_error xs i = Some NInf -> nth_error p i = Some 0%R) /\
  (forall i x, nth_error xs i = Some (Fin x) -> exists q, nth_error p i = Some q /\ (0 < q)%R) /\
  (forall i j x y, nth_error xs i = Some (Fin x) -> nth_error xs j = Some (Fin y) -> (x < y)%R ->
     exists q r, nth_error p i = Some q /\ nth_error p j = Some r /\ (q < r)%R) /\
  (forall k, marginals_row (map (ext_add k) xs) = p).
Proof.
  intros H p. unfold p. rewrite (marginals_row_eq xs a H). pose proof (ext_exp_sum xs a H) as HS. set (S := rsum (map ext_exp xs)) in *.
  pose proof (Rinv_0_lt_compat S HS) as HI. split; [now rewrite map_length|]. split.
  { intros y Hy. apply in_map_iff in Hy. destruct Hy as [z [<- _]]. apply Rmult_le_pos; [apply ext_exp_nonneg|lra]. }
  split.
  { rewrite (map_ext _ (fun x => / S * ext_exp x)%R) by (intros x; unfold Rdiv; ring). rewrite rsum_scal. fold S. field. lra. }
  split.
  { intros i Hi. rewrite nth_error_map, Hi. cbn [option_map ext_exp]. f_equal. unfold Rdiv. ring. }
  split.
  { intros i x Hi. rewrite nth_error_map, Hi. cbn [option_map ext_exp]. eexists. split; [reflexivity|]. apply Rmult_lt_0_compat; [apply exp_pos|exact HI]. }
  split.
  { intros i j x y Hi Hj Hxy. rewrite !nth_error_map, Hi, Hj. cbn [option_map ext_exp]. do 2 eexists. split; [reflexivity|]. split; [reflexivity|].
    apply Rmult_lt_compat_r; [exact HI|]. now apply exp_increasing. }
  intros k. rewrite (marginals_row_eq _ (a + k)%R) by (apply in_map_iff; exists (Fin a); now split).
  rewrite !map_map. assert (E : forall x, ext_exp (ext_add k x) = (exp k * ext_exp x)%R).
  { intros [|x]; cbn [ext_add ext_exp]; [ring|]. rewrite exp_plus. ring. }
  rewrite (map_ext (fun x => ext_exp (ext_add k x)) (fun x => exp k * ext_exp x)%R) by exact E. rewrite rsum_scal. fold S. apply map_ext. intros x. rewrite E.
  pose proof (exp_pos k). field. lra.
Qed.
Lemma marginals_gibbs (b : nat -> R) n k : 0 < n ->
  marginals_row (map (fun s => Fin (b s)) (seq 0 n) ++ repeat NInf k) = map (gibbs b n) (seq 0 n) ++ repeat 0%R k.
Proof.
  intros Hn. rewrite (marginals_row_eq _ (b 0)).
  - rewrite !map_app, !map_map, rsum_app. cbn [ext_exp].
    assert (Z : forall j, map ext_exp (repeat NInf j) = repeat 0%R j) by (induction j as [|j IH]; cbn; congruence).
    assert (Z' : rsum (repeat 0%R k) = 0%R) by (clear; induction k as [|k IH]; [reflexivity|cbn [repeat]; rewrite rsum_cons, IH; ring]).
    rewrite Z, Z', Rplus_0_r. unfold gibbs. f_equal. clear. induction k as [|k IH]; [reflexivity|]. cbn [repeat map]. rewrite IH. f_equal. cbn [ext_exp]. unfold Rdiv. ring.
  - apply in_app_iff. left. apply in_map_iff. exists 0. split; [reflexivity|]. apply in_seq. lia.
Qed.

(** ** decode_map_states and get_marginals after get_beliefs *)
Section Decode.
  Context (vgs : list vgroup) (g : fgraph R) (T : R) (c : bp_ctx R).
  Hypothesis Hok : groups_ok vgs.
  Hypothesis Hr : reachable vgs g.
  Hypothesis Hwf : wf_groups (gr_groups g).
  Hypothesis Hbp : bp_of g T c.
  Context (a : bp_arrays R).
  Hypothesis Ha : arrays_of c a.
  Hypothesis Hpos : forall gr n, In gr vgs -> In n (vg_num_states gr) -> 0 < n.
  Hypothesis Hone : forall gr, In gr vgs -> one_state gr = false.
  Let fs := graph_factors 0%R (gr_groups g).
  Let belief := text_belief fs (read_ev (gr_vars_to_starts g) (ba_evidence a)) (read_msgs fs (ba_ftov_msgs a)).

  Lemma var_pos gr i x : In gr vgs -> nth_error (vg_variables gr) i = Some x -> 0 < snd x.
  Proof.
    intros Hg Hi. apply (Hpos gr); [exact Hg|]. rewrite <- (vg_variables_snd gr) by now apply (groups_ok_wf vgs). apply in_map. eapply nth_error_In. exact Hi.
  Qed.
  Lemma group_constructed gr : In gr vgs -> constructed gr.
  Proof. clear - Hok. destruct Hok as [H _]. rewrite Forall_forall in H. apply H. Qed.

  Lemma decode_gen {B} (F : ndarray (ext R) -> res (ndarray B)) (P : vgroup -> gdata (ext R) -> gdata B -> Prop) :
    (forall gr d, In gr vgs -> per_state_shape gr d -> exists d', map_gdata F d = Ok d' /\ P gr d d') ->
    exists b, get_beliefs c a = Ok b /\ exists r, map_beliefs F b = Ok r /\ map fst r = vgs /\
    forall gr, In gr vgs -> exists d d', dget vg_eqb gr b = Some d /\ dget vg_eqb gr r = Some d' /\ P gr d d' /\
      forall i x, nth_error (vg_variables gr) i = Some x ->
        row gr d i = map (fun s => Fin (belief x s)) (seq 0 (snd x)) ++ repeat NInf (state_axis gr i - snd x).
  Proof.
    intros H. destruct (C33_lemma vgs g T c Hok Hr Hwf Hbp a Ha Hpos) as [b [Eb [Kb Db]]]. exists b. split; [exact Eb|].
    destruct (map_beliefs_all F b P) as [r [Er [Kr Dr]]].
    - now rewrite Kb.
    - intros gr d Hin. assert (Hg : In gr vgs) by (rewrite <- Kb; apply in_map_iff; now exists (gr, d)).
      destruct (Db gr Hg) as [d0 [E0 [S0 _]]]. rewrite (dget_pair b gr d) in E0 by (rewrite ?Kb; assumption). injection E0 as <-. now apply H.
    - exists r. split; [exact Er|]. split; [congruence|]. intros gr Hg. destruct (Db gr Hg) as [d [Ed [Sd Rd]]].
      destruct (Dr gr d Ed) as [d' [Ed' Pd']]; [now rewrite Kb|]. exists d, d'. auto.
  Qed.

  Lemma C34_lemma : exists b r, get_beliefs c a = Ok b /\ decode_map_states b = Ok r /\ map fst r = vgs /\
    forall gr, In gr vgs -> exists d, dget vg_eqb gr r = Some d /\ per_var_shape gr d /\
      forall i x, nth_error (vg_variables gr) i = Some x -> exists s, cell gr d i = [s] /\ first_best (belief x) (snd x) s.
  Proof.
    destruct (decode_gen (along_last argmax) (fun gr d d' => per_var_shape gr d' /\ forall i, i < length (vg_variables gr) -> cell gr d' i = [argmax (row gr d i)])) as [b [Eb [r [Er [Kr Dr]]]]].
    - intros gr d Hg Sd. apply along_last_gdata; [now apply group_constructed|intros n; now apply Hpos|now apply Hone|exact Sd].
    - exists b, r. split; [exact Eb|]. split; [exact Er|]. split; [exact Kr|]. intros gr Hg. destruct (Dr gr Hg) as [d [d' [_ [Ed' [[Sd' Cd'] Rd]]]]].
      exists d'. split; [exact Ed'|]. split; [exact Sd'|]. intros i x Hi. rewrite Cd' by (apply nth_error_Some; congruence). eexists. split; [reflexivity|].
      rewrite (Rd i x Hi). apply argmax_first_best. now apply (var_pos gr i).
  Qed.
  Lemma C35_lemma : exists b r, get_beliefs c a = Ok b /\ get_marginals b = Ok r /\ map fst r = vgs /\
    forall gr, In gr vgs -> exists d, dget vg_eqb gr r = Some d /\ per_state_shape gr d /\
      forall i x, nth_error (vg_variables gr) i = Some x ->
        row gr d i = map (gibbs (belief x) (snd x)) (seq 0 (snd x)) ++ repeat 0%R (state_axis gr i - snd x).
  Proof.
    destruct (decode_gen marginals_array (fun gr d d' => per_state_shape gr d' /\ forall i, i < length (vg_variables gr) -> row gr d' i = marginals_row (row gr d i))) as [b [Eb [r [Er [Kr Dr]]]]].
    - intros gr d Hg Sd. apply marginals_gdata; [now apply group_constructed|intros n; now apply Hpos|now apply Hone|exact Sd].
    - exists b, r. split; [exact Eb|]. split; [exact Er|]. split; [exact Kr|]. intros gr Hg. destruct (Dr gr Hg) as [d [d' [_ [Ed' [[Sd' Cd'] Rd]]]]].
      exists d'. split; [exact Ed'|]. split; [exact Sd'|]. intros i x Hi. rewrite Cd' by (apply nth_error_Some; congruence).
      rewrite (Rd i x Hi). apply marginals_gibbs. now apply (var_pos gr i).
  Qed.
End Decode.

(** ** Arrays of one-state variables *)
Lemma one_state_lemma {B} (f : list (ext R) -> B) v s m (d : gdata (ext R)) :
  one_state (VA v) = true -> va_shape v = s ++ [m] -> 0 < m -> per_state_shape (VA v) d ->
  exists y, map_gdata (along_last f) d = Ok (DArr y) /\ shape y = s /\ ~ per_var_shape (VA v) (DArr y).
Proof.
  intros H1 Hs Hm Hd. destruct d as [a|]; [|contradiction]. cbn [per_state_shape] in Hd. rewrite H1 in Hd. destruct Hd as [W E]. rewrite Hs in E.
  cbn [map_gdata]. rewrite (along_last_ok f a s m E Hm). cbn [bind]. eexists. split; [reflexivity|]. split; [reflexivity|].
  intros [_ F]. cbn [shape] in F. rewrite Hs in F. apply (f_equal (@length nat)) in F. rewrite app_length in F. cbn in F. lia.
Qed.
Lemma no_axis_lemma {B} (f : list (ext R) -> B) v (d : gdata (ext R)) :
  one_state (VA v) = true -> va_shape v = [] \/ (exists s, va_shape v = s ++ [0]) -> per_state_shape (VA v) d ->
  map_gdata (along_last f) d = Raise ValueError.
Proof.
  intros H1 Hs Hd. destruct d as [a|]; [|contradiction]. cbn [per_state_shape] in Hd. rewrite H1 in Hd. destruct Hd as [W E].
  cbn [map_gdata]. unfold along_last. rewrite E. destruct Hs as [->|[s ->]]; [reflexivity|]. rewrite rev_app_distr. reflexivity.
Qed.
Lemma one_state_marginals_lemma v s m (d : gdata (ext R)) :
  one_state (VA v) = true -> va_shape v = s ++ [m] -> 0 < m -> per_state_shape (VA v) d ->
  exists a y, d = DArr a /\ map_gdata (marginals_array (A := R)) d = Ok (DArr y) /\
    data y = concat (map marginals_row (rows (prod s) m (data a))).
Proof.
  intros H1 Hs Hm Hd. destruct d as [a|]; [|contradiction]. cbn [per_state_shape] in Hd. rewrite H1 in Hd. destruct Hd as [W E]. rewrite Hs in E.
  cbn [map_gdata]. destruct (marginals_array_ok a s m W E Hm) as [-> _]. cbn [bind]. do 2 eexists. split; [reflexivity|]. split; reflexivity.
Qed.
