(** * Proofs about compiled wirings: loops equal closed forms (C18, C20-C22). *)
From Verif Require Import FGraph Lists SpecFactor SpecWiring LemFGraph LemFactor.
From Coq Require Import Lia.
Local Open Scope nat_scope.

(** ** Loops writing consecutive blocks *)
Lemma for_range_ext {S} n (b1 b2 : nat -> S -> S) s :
  (forall i s, i < n -> b1 i s = b2 i s) -> for_range n b1 s = for_range n b2 s.
Proof.
  revert s; induction n as [|n IH]; intros s H; [reflexivity|].
  rewrite !for_range_S. rewrite IH by (intros; apply H; lia). apply H. lia.
Qed.

Lemma blit_blit {A} (x y xs : list A) a : blit (a + length x) y (blit a x xs) = blit a (x ++ y) xs.
Proof.
  revert a xs; induction x as [|v x IH]; intros a xs; simpl; [now rewrite Nat.add_0_r|].
  rewrite <- IH. f_equal. lia.
Qed.

Lemma for_range_blit {A} (l : list nat) (B : nat -> list A) a n out :
  n <= length l -> (forall i, i < n -> length (B i) = nth i l 0) ->
  for_range n (fun i out => blit (a + off l i) (B i) out) out
  = blit a (concat (map B (seq 0 n))) out /\ length (concat (map B (seq 0 n))) = off l n.
Proof.
  induction n as [|n IH]; intros Hn HB; [split; reflexivity|].
  destruct IH as [IH1 IH2]; [lia|intros; apply HB; lia|].
  rewrite for_range_S, IH1. rewrite seq_S, map_app, concat_app. simpl. rewrite app_nil_r.
  rewrite off_S by lia. rewrite app_length, IH2, HB by lia. split; [|reflexivity].
  rewrite <- IH2. apply blit_blit.
Qed.

Lemma blit_full {A} (vs xs : list A) : length vs = length xs -> blit 0 vs xs = vs.
Proof.
  intros H. rewrite blit_app by lia. simpl. rewrite skipn_all2 by lia. apply app_nil_r.
Qed.

Lemma np_empty_length {A} (junk : nat -> A) n : length (np_empty junk n) = n.
Proof. unfold np_empty. now rewrite map_length, seq_length. Qed.

Lemma off_repeat m n i : i <= n -> off (repeat m n) i = m * i.
Proof.
  intros H. unfold off. replace n with (i + (n - i)) by lia. rewrite repeat_app, firstn_app, repeat_length.
  replace (i - i) with 0 by lia. simpl. rewrite app_nil_r, firstn_all2 by (rewrite repeat_length; lia).
  rewrite list_sum_repeat. lia.
Qed.

(** ** Variable states *)
Lemma compile_var_states_spec junk ens vstates :
  length vstates = length ens ->
  compile_var_states_numba (np_empty junk (list_sum ens)) (cumsum0 ens) vstates
  = concat (map (fun i => map (fun k => Z.of_nat (nth i vstates 0 + k)) (seq 0 (nth i ens 0)))
                (seq 0 (length ens))).
Proof.
  intros Hl. unfold compile_var_states_numba. rewrite cumsum0_length. replace (S (length ens) - 1) with (length ens) by lia.
  set (B := fun i => map (fun k => Z.of_nat (nth i vstates 0 + k)) (seq 0 (nth i ens 0))).
  assert (HB : forall i, i < length ens -> length (B i) = nth i ens 0).
  { intros i Hi. unfold B. now rewrite map_length, seq_length. }
  rewrite (for_range_ext _ _ (fun i out => blit (0 + off ens i) (B i) out)).
  - destruct (for_range_blit ens B 0 (length ens) (np_empty junk (list_sum ens)) (le_n _) HB) as [E1 E2].
    rewrite E1. apply blit_full. rewrite E2, np_empty_length. now apply off_all.
  - intros i out Hi. cbv beta zeta. rewrite Nat.add_1_r. rewrite (nth_cumsum0 ens i) by lia. rewrite (nth_cumsum0 ens (S i)) by lia. rewrite (off_S ens i) by lia. rewrite Nat.add_0_l.
    f_equal. unfold B. do 2 f_equal. lia.
Qed.

Lemma lookup_var_states_spec starts vss :
  (known starts (concat vss) /\ lookup_var_states starts vss = Ok (map (start_of starts) (concat vss))) \/
  (~ known starts (concat vss) /\ lookup_var_states starts vss = Raise KeyError).
Proof.
  unfold lookup_var_states, known. induction (concat vss) as [|x l IH]; simpl.
  - left. split; [intros x []|reflexivity].
  - unfold start_of at 1. destruct (dget var_eqb x starts) as [s|] eqn:E; simpl.
    + destruct IH as [[H ->]|[H ->]]; simpl.
      * left. split; [|reflexivity]. intros y [<-|Hy]; [eauto|auto].
      * right. split; [|reflexivity]. intros H'. apply H. intros y Hy. apply H'. now right.
    + right. split; [|reflexivity]. intros H. destruct (H x (or_introl eq_refl)) as [s Hs]. congruence.
Qed.

Lemma edge_var_states_index starts es :
  edge_var_states starts es
  = concat (map (fun i => map (fun k => Z.of_nat (nth i (map (start_of starts) es) 0 + k))
                              (seq 0 (nth i (map snd es) 0))) (seq 0 (length es))).
Proof.
  unfold edge_var_states. rewrite flat_map_concat_map. f_equal.
  induction es as [|x es IH]; [reflexivity|]. simpl. f_equal. rewrite IH, <- seq_shift, map_map. reflexivity.
Qed.

Lemma edge_var_states_length starts es : length (edge_var_states starts es) = list_sum (map snd es).
Proof.
  unfold edge_var_states. induction es as [|x es IH]; [reflexivity|]. simpl.
  rewrite app_length, IH, map_length, seq_length. reflexivity.
Qed.
Lemma edge_var_states_app starts a b :
  edge_var_states starts (a ++ b) = edge_var_states starts a ++ edge_var_states starts b.
Proof. apply flat_map_app. Qed.
Lemma edge_var_states_concat starts l :
  edge_var_states starts (concat l) = concat (map (edge_var_states starts) l).
Proof. induction l as [|x l IH]; [reflexivity|]. simpl. now rewrite edge_var_states_app, IH. Qed.

Lemma nth_edge_var_states starts es e s x :
  nth_error es e = Some x -> s < snd x ->
  nth (edge_start es e + s) (edge_var_states starts es) 0%Z = Z.of_nat (start_of starts x + s).
Proof.
  unfold edge_start. revert e; induction es as [|y es IH]; intros [|e] He Hs; simpl in *; try discriminate.
  - injection He as ->. rewrite app_nth1 by (now rewrite map_length, seq_length).
    now rewrite nth_map_seq.
  - rewrite off_cons, app_nth2 by (rewrite map_length, seq_length; lia).
    rewrite map_length, seq_length. rewrite <- (IH e He Hs). f_equal. lia.
Qed.

Lemma compile_var_states_edges junk starts es :
  compile_var_states_numba (np_empty junk (list_sum (map snd es))) (cumsum0 (map snd es)) (map (start_of starts) es)
  = edge_var_states starts es.
Proof.
  rewrite compile_var_states_spec by now rewrite !map_length. rewrite edge_var_states_index.
  now rewrite map_length.
Qed.

(** ** Enumeration wiring of one group *)
Lemma config_body (x : Z) (val : nat -> Z) a k out :
  for_range k (fun u out => upd (a + u) (fun p => (fst p, val u)) out)
    (for_range k (fun u out => upd (a + u) (fun p => (x, snd p)) out) out)
  = blit a (map (fun u => (x, val u)) (seq 0 k)) out.
Proof.
  assert (H1 : forall n out, length (for_range n (fun u out => upd (a + u) (fun p : Z * Z => (x, snd p)) out) out) = length out /\
    forall j d, j < length out -> nth j (for_range n (fun u out => upd (a + u) (fun p : Z * Z => (x, snd p)) out) out) d
      = if (a <=? j) && (j <? a + n) then (x, snd (nth j out d)) else nth j out d).
  { clear. intros n out. induction n as [|n [IH1 IH2]].
    - split; [reflexivity|]. intros j d Hj. rewrite for_range_0.
      destruct (Nat.leb_spec a j), (Nat.ltb_spec j (a + 0)); simpl; reflexivity || lia.
    - rewrite for_range_S. split; [now rewrite upd_length|]. intros j d Hj.
      destruct (Nat.eq_dec (a + n) j) as [<-|Hne].
      + rewrite nth_upd_eq by lia. rewrite IH2 by lia.
        destruct (Nat.leb_spec a (a + n)), (Nat.ltb_spec (a + n) (a + n)), (Nat.ltb_spec (a + n) (a + S n)); simpl; reflexivity || lia.
      + rewrite nth_upd_neq by exact Hne. rewrite IH2 by lia.
        destruct (Nat.leb_spec a j), (Nat.ltb_spec j (a + n)), (Nat.ltb_spec j (a + S n)); simpl; reflexivity || lia. }
  assert (H2 : forall n out, length (for_range n (fun u out => upd (a + u) (fun p : Z * Z => (fst p, val u)) out) out) = length out /\
    forall j d, j < length out -> nth j (for_range n (fun u out => upd (a + u) (fun p : Z * Z => (fst p, val u)) out) out) d
      = if (a <=? j) && (j <? a + n) then (fst (nth j out d), val (j - a)) else nth j out d).
  { clear. intros n out. induction n as [|n [IH1 IH2]].
    - split; [reflexivity|]. intros j d Hj. rewrite for_range_0.
      destruct (Nat.leb_spec a j), (Nat.ltb_spec j (a + 0)); simpl; reflexivity || lia.
    - rewrite for_range_S. split; [now rewrite upd_length|]. intros j d Hj.
      destruct (Nat.eq_dec (a + n) j) as [<-|Hne].
      + rewrite nth_upd_eq by lia. rewrite IH2 by lia. replace (a + n - a) with n by lia.
        destruct (Nat.leb_spec a (a + n)), (Nat.ltb_spec (a + n) (a + n)), (Nat.ltb_spec (a + n) (a + S n)); simpl; reflexivity || lia.
      + rewrite nth_upd_neq by exact Hne. rewrite IH2 by lia.
        destruct (Nat.leb_spec a j), (Nat.ltb_spec j (a + n)), (Nat.ltb_spec j (a + S n)); simpl; reflexivity || lia. }
  destruct (H1 k out) as [L1 N1].
  destruct (H2 k (for_range k (fun u out => upd (a + u) (fun p : Z * Z => (x, snd p)) out) out)) as [L2 N2].
  apply (nth_ext _ _ (0, 0)%Z (0, 0)%Z).
  - now rewrite L2, L1, blit_length.
  - intros j Hj. rewrite L2, L1 in Hj. rewrite N2 by lia. rewrite N1 by lia.
    destruct (Nat.leb_spec a j), (Nat.ltb_spec j (a + k)); simpl.
    + rewrite nth_blit_in by (rewrite ?map_length, ?seq_length; lia). rewrite nth_map_seq by lia. reflexivity.
    + rewrite nth_blit_out by (rewrite map_length, seq_length; lia). reflexivity.
    + rewrite nth_blit_out by (rewrite map_length, seq_length; lia). reflexivity.
    + rewrite nth_blit_out by (rewrite map_length, seq_length; lia). reflexivity.
Qed.

Lemma compile_enumeration_spec junk configs nc k estarts nf :
  shape configs = [nc; k] ->
  compile_enumeration_wiring_numba (np_empty (fun i => (junk i, junk i)) (nf * nc * k)) configs estarts nf
  = concat (map (fun f => concat (map (fun c => map (fun u =>
        (Z.of_nat (nc * f + c), (Z.of_nat (nth (k * f + u) estarts 0%nat) + config_at configs k c u)%Z))
        (seq 0 k)) (seq 0 nc))) (seq 0 nf)).
Proof.
  intros Hs. unfold compile_enumeration_wiring_numba. rewrite Hs. cbn [nth].
  set (R := fun f c => map (fun u =>
        (Z.of_nat (nc * f + c), (Z.of_nat (nth (k * f + u) estarts 0%nat) + config_at configs k c u)%Z)) (seq 0 k)).
  set (FB := fun f => concat (map (R f) (seq 0 nc))).
  assert (HR : forall f c, length (R f c) = k) by (intros; unfold R; now rewrite map_length, seq_length).
  assert (HFB : forall f, length (FB f) = nc * k).
  { intros f. unfold FB. rewrite (concat_length_uniform _ k); [now rewrite map_length, seq_length|].
    intros x Hx. apply in_map_iff in Hx. destruct Hx as [c [<- _]]. apply HR. }
  rewrite (for_range_ext _ _ (fun f out => blit (0 + off (repeat (nc * k) nf) f) (FB f) out)).
  - destruct (for_range_blit (repeat (nc * k) nf) FB 0 nf
      (np_empty (fun i => (junk i, junk i)) (nf * nc * k))) as [E1 E2].
    + now rewrite repeat_length.
    + intros i Hi. rewrite HFB. now rewrite nth_repeat_lt.
    + rewrite E1. rewrite blit_full; [reflexivity|]. rewrite E2, np_empty_length, off_repeat by lia. lia.
  - intros f out Hf. rewrite off_repeat by lia. simpl.
    rewrite (for_range_ext _ _ (fun c out => blit (nc * k * f + off (repeat k nc) c) (R f c) out)).
    + destruct (for_range_blit (repeat k nc) (R f) (nc * k * f) nc out) as [E1 E2].
      * now rewrite repeat_length.
      * intros i Hi. rewrite HR. now rewrite nth_repeat_lt.
      * exact E1.
    + intros c out' Hc. rewrite off_repeat by lia. replace (nc * k * f + k * c) with (k * (nc * f + c)) by lia.
      unfold R. apply (config_body (Z.of_nat (nc * f + c)) (fun u =>
        (Z.of_nat (nth (k * f + u) estarts 0%nat) + config_at configs k c u)%Z)).
Qed.

(** ** Rows of a list of factors *)
Definition sf_default {A} : sfactor A := SF [] [] [].
Definition nconfs {A} (fs : list (sfactor A)) : nat := list_sum (map (fun F => length (sf_configs F)) fs).
Definition nstates (es : list variable) : nat := list_sum (map snd es).
Definition shift2 (a b : nat) (p : Z * Z) : Z * Z := (fst p + Z.of_nat a, snd p + Z.of_nat b)%Z.

Lemma shift2_0 l : map (shift2 0 0) l = l.
Proof. rewrite <- (map_id l) at 2. apply map_ext. intros [x y]. unfold shift2. simpl. f_equal; lia. Qed.

Lemma map_flat_map {X Y W} (h : Y -> W) (f : X -> list Y) l : map h (flat_map f l) = flat_map (fun x => map h (f x)) l.
Proof. induction l as [|x l IH]; simpl; [reflexivity|]. now rewrite map_app, IH. Qed.
Lemma flat_map_ext_In {X Y} (f g : X -> list Y) l : (forall x, In x l -> f x = g x) -> flat_map f l = flat_map g l.
Proof. intros H. induction l as [|x l IH]; simpl; [reflexivity|]. rewrite H by now left. f_equal. apply IH. intros; apply H; now right. Qed.
Lemma flat_map_map {X Y W} (f : Y -> list W) (h : X -> Y) l : flat_map f (map h l) = flat_map (fun x => f (h x)) l.
Proof. induction l as [|x l IH]; simpl; [reflexivity|]. now rewrite IH. Qed.
Lemma seq_plus a n : seq a n = map (Nat.add a) (seq 0 n).
Proof.
  revert a; induction n as [|n IH]; intros a; [reflexivity|]. simpl. rewrite Nat.add_0_r. f_equal.
  rewrite IH. rewrite <- seq_shift, map_map. apply map_ext. intros; lia.
Qed.

Lemma sf_edges_app {A} (fs1 fs2 : list (sfactor A)) : sf_edges (fs1 ++ fs2) = sf_edges fs1 ++ sf_edges fs2.
Proof. unfold sf_edges. now rewrite map_app, concat_app. Qed.
Lemma sf_edges_length {A} (fs : list (sfactor A)) :
  length (sf_edges fs) = list_sum (map (fun F => length (sf_vars F)) fs).
Proof. unfold sf_edges. now rewrite concat_length, map_map. Qed.

Lemma sf_rows_app {A} (fs1 fs2 : list (sfactor A)) :
  sf_rows (fs1 ++ fs2) = sf_rows fs1 ++ map (shift2 (nconfs fs1) (nstates (sf_edges fs1))) (sf_rows fs2).
Proof.
  unfold sf_rows. rewrite app_length, seq_app, flat_map_app. f_equal.
  - apply flat_map_ext_In. intros f Hf. apply in_seq in Hf. cbv zeta. rewrite app_nth1 by lia.
    apply flat_map_ext_In. intros c Hc. apply in_seq in Hc. apply map_ext_in. intros u Hu. apply in_seq in Hu.
    unfold sf_row, sf_first_config, sf_first_edge, first_edge, edge_start. cbv zeta. rewrite app_nth1 by lia.
    assert (Hb : off (map (fun F : sfactor A => length (sf_vars F)) fs1) f + u <= length (map snd (sf_edges fs1))).
    { rewrite map_length, sf_edges_length. apply Nat.lt_le_incl. apply off_block_lt; [rewrite map_length; lia|].
      rewrite (nth_map _ _ _ _ (SF [] [] [])) by lia. lia. }
    rewrite sf_edges_app, !map_app.
    rewrite (off_app1 (map (fun F : sfactor A => length (sf_configs F)) fs1)) by (rewrite map_length; lia).
    rewrite (off_app1 (map (fun F : sfactor A => length (sf_vars F)) fs1)) by (rewrite map_length; lia).
    rewrite (off_app1 (map snd (sf_edges fs1))) by exact Hb. reflexivity.
  - simpl. rewrite (seq_plus (length fs1)), flat_map_map, map_flat_map.
    apply flat_map_ext_In. intros f Hf. apply in_seq in Hf. cbv zeta. rewrite app_nth2_plus.
    rewrite map_flat_map. apply flat_map_ext_In. intros c Hc. apply in_seq in Hc. rewrite map_map.
    apply map_ext_in. intros u Hu. apply in_seq in Hu.
    unfold sf_row, sf_first_config, sf_first_edge, first_edge, edge_start, shift2. cbv zeta. rewrite app_nth2_plus.
    rewrite !map_app.
    replace (length fs1) with (length (map (fun F : sfactor A => length (sf_configs F)) fs1)) at 1 by apply map_length.
    rewrite off_app2.
    replace (length fs1) with (length (map (fun F : sfactor A => length (sf_vars F)) fs1)) at 1 by apply map_length.
    rewrite off_app2. rewrite sf_edges_app, map_app, <- sf_edges_length.
    replace (length (sf_edges fs1) + off (map (fun F : sfactor A => length (sf_vars F)) fs2) f + u)
      with (length (map snd (sf_edges fs1)) + (off (map (fun F : sfactor A => length (sf_vars F)) fs2) f + u))
      by (rewrite map_length; lia).
    rewrite off_app2. cbn [fst snd]. unfold nconfs, nstates. f_equal; lia.
Qed.

(** ** One enumeration group *)
(** The wiring that the factors [fs] should have. *)
Lemma group_factors_length {A} (g : fgroup A) : length (group_factors g) = length (fg_vars g).
Proof. unfold group_factors. rewrite map_length, combine_length, seq_length. lia. Qed.
Lemma group_factors_vars {A} (g : fgroup A) : map sf_vars (group_factors g) = fg_vars g.
Proof.
  unfold group_factors. rewrite map_map. simpl.
  generalize 0. induction (fg_vars g) as [|v l IH]; intros a; [reflexivity|]. simpl. now rewrite IH.
Qed.
Lemma group_factors_edges {A} (g : fgroup A) : sf_edges (group_factors g) = concat (fg_vars g).
Proof. unfold sf_edges. now rewrite group_factors_vars. Qed.
Lemma group_factors_configs {A} (g : fgroup A) F : In F (group_factors g) -> sf_configs F = config_rows (fg_configs g).
Proof. unfold group_factors. intros H. apply in_map_iff in H. destruct H as [iv [<- _]]. reflexivity. Qed.
Lemma config_rows_length cfg : length (config_rows cfg) = nth 0 (shape cfg) 0.
Proof. unfold config_rows. now rewrite map_length, seq_length. Qed.
Lemma config_rows_nth cfg c u : c < nth 0 (shape cfg) 0 -> u < nth 1 (shape cfg) 0 ->
  nth u (nth c (config_rows cfg) []) 0%Z = config_at cfg (nth 1 (shape cfg) 0) c u.
Proof. intros Hc Hu. unfold config_rows. rewrite nth_map_seq by lia. rewrite nth_map_seq by lia. reflexivity. Qed.
Lemma map_const {X Y} (f : X -> Y) y l : (forall x, In x l -> f x = y) -> map f l = repeat y (length l).
Proof. intros H. induction l as [|x l IH]; simpl; [reflexivity|]. rewrite H by now left. f_equal. apply IH. intros; apply H; now right. Qed.

Lemma group_nconfs {A} (g : fgroup A) : nconfs (group_factors g) = length (fg_vars g) * nth 0 (shape (fg_configs g)) 0.
Proof.
  unfold nconfs. rewrite (map_const _ (nth 0 (shape (fg_configs g)) 0)).
  - rewrite list_sum_repeat, group_factors_length. lia.
  - intros F HF. rewrite (group_factors_configs g F HF). apply config_rows_length.
Qed.

Lemma group_rows {A} (g : fgroup A) nc k :
  shape (fg_configs g) = [nc; k] -> (forall vs, In vs (fg_vars g) -> length vs = k) ->
  concat (map (fun f => concat (map (fun c => map (fun u =>
        (Z.of_nat (nc * f + c),
         (Z.of_nat (off (map snd (concat (fg_vars g))) (k * f + u)) + config_at (fg_configs g) k c u)%Z))
        (seq 0 k)) (seq 0 nc))) (seq 0 (length (fg_vars g))))
  = sf_rows (group_factors g).
Proof.
  intros Hs Hk. unfold sf_rows. rewrite group_factors_length, flat_map_concat_map. f_equal.
  apply map_ext_in. intros f Hf. apply in_seq in Hf. cbv zeta.
  set (F := nth f (group_factors g) (SF [] [] [])).
  assert (HF : In F (group_factors g)) by (apply nth_In; rewrite group_factors_length; lia).
  assert (Hv : length (sf_vars F) = k).
  { apply Hk. rewrite <- group_factors_vars. now apply in_map. }
  rewrite Hv, (group_factors_configs g F HF), config_rows_length, Hs. cbn [nth].
  rewrite flat_map_concat_map. f_equal. apply map_ext_in. intros c Hc. apply in_seq in Hc.
  apply map_ext_in. intros u Hu. apply in_seq in Hu. unfold sf_row. fold F.
  rewrite (group_factors_configs g F HF). rewrite config_rows_nth by (rewrite Hs; cbn [nth]; lia).
  unfold sf_first_config, sf_first_edge, first_edge, edge_start. rewrite group_factors_edges.
  rewrite (map_const (fun F0 : sfactor A => length (sf_configs F0)) nc)
    by (intros F0 HF0; rewrite (group_factors_configs g F0 HF0), config_rows_length, Hs; reflexivity).
  rewrite (map_const (fun F0 : sfactor A => length (sf_vars F0)) k)
    by (intros F0 HF0; apply Hk; rewrite <- group_factors_vars; now apply in_map).
  rewrite group_factors_length, !off_repeat by lia. rewrite Hs. reflexivity.
Qed.

Lemma map_snd_concat_length (vss : list (list variable)) k :
  (forall vs, In vs vss -> length vs = k) -> length (map snd (concat vss)) = length vss * k.
Proof. intros H. rewrite map_length. now apply concat_length_uniform. Qed.

Lemma fg_compile_enum_spec {A} junk (g : fgroup A) starts :
  arity_ok g ->
  (known starts (concat (fg_vars g)) ->
     fg_compile_enum junk g starts = Ok (ew_ideal starts (group_factors g))) /\
  (~ known starts (concat (fg_vars g)) -> fg_compile_enum junk g starts = Raise KeyError).
Proof.
  intros [nc [k [Hs Hk]]]. unfold fg_compile_enum, enum_compile_wiring, fg_factor_edges_num_states, fg_num_factors.
  destruct (lookup_var_states_spec starts (fg_vars g)) as [[Hn ->]|[Hn ->]]; cbn [bind]; split; intros H; try contradiction; try reflexivity.
  rewrite Hs. cbn [length nth Nat.eqb negb]. rewrite map_snd_concat_length with (k := k) by exact Hk.
  rewrite Nat.eqb_refl. cbn [negb]. f_equal. unfold ew_ideal. rewrite group_factors_edges. f_equal.
  - rewrite last_cumsum0. apply compile_var_states_edges.
  - rewrite (compile_enumeration_spec junk _ nc k) by exact Hs. rewrite <- (group_rows g nc k Hs Hk).
    f_equal. apply map_ext_in. intros f Hf. apply in_seq in Hf. f_equal. apply map_ext. intros c.
    apply map_ext_in. intros u Hu. apply in_seq in Hu. rewrite nth_cumsum0; [reflexivity|].
    rewrite map_snd_concat_length with (k := k) by exact Hk. nia.
Qed.

Lemma fg_compile_enum_dims {A} junk (g : fgroup A) starts : known starts (concat (fg_vars g)) -> length (shape (fg_configs g)) <> 2 ->
  fg_compile_enum junk g starts = Raise ValueError.
Proof.
  intros Hk Hs. unfold fg_compile_enum, enum_compile_wiring. destruct (lookup_var_states_spec starts (fg_vars g)) as [[Hn ->]|[Hn ->]]; [|contradiction].
  cbn [bind]. now destruct (Nat.eqb_spec (length (shape (fg_configs g))) 2).
Qed.
(** No result depends on the contents of uninitialised arrays. *)
Lemma fg_compile_enum_junk {A} j1 j2 (g : fgroup A) starts : fg_compile_enum j1 g starts = fg_compile_enum j2 g starts.
Proof.
  unfold fg_compile_enum, enum_compile_wiring, fg_factor_edges_num_states, fg_num_factors.
  destruct (lookup_var_states_spec starts (fg_vars g)) as [[Hn ->]|[Hn ->]]; cbn [bind]; [|reflexivity].
  destruct (shape (fg_configs g)) as [|nc [|k [|]]] eqn:Hs; try reflexivity. cbn [length nth Nat.eqb negb].
  destruct (negb _); [reflexivity|]. f_equal. f_equal.
  - rewrite last_cumsum0. now rewrite !compile_var_states_edges.
  - now rewrite !(compile_enumeration_spec _ _ nc k) by exact Hs.
Qed.

(** ** Concatenation *)
Lemma starts_snoc l x : starts (l ++ [x]) = starts l ++ [list_sum l].
Proof.
  rewrite !starts_off, app_length, seq_app, map_app. simpl. f_equal.
  - apply map_ext_in. intros i Hi. apply in_seq in Hi. apply off_app1. lia.
  - rewrite off_app1 by lia. now rewrite off_all by lia.
Qed.



Lemma sf_rows_single {A} (F : sfactor A) :
  sf_rows [F] = flat_map (fun c => map (fun u => (Z.of_nat c,
     (Z.of_nat (off (map snd (sf_vars F)) u) + nth u (nth c (sf_configs F) []) 0)%Z)) (seq 0 (length (sf_vars F))))
     (seq 0 (length (sf_configs F))).
Proof.
  unfold sf_rows. simpl. rewrite app_nil_r. apply flat_map_ext. intros c. apply map_ext. intros u.
  unfold sf_row, sf_first_config, sf_first_edge, first_edge, edge_start, sf_edges. simpl. now rewrite app_nil_r.
Qed.

Lemma last_app_ne {X} (a b : list X) d : b <> [] -> last (a ++ b) d = last b d.
Proof.
  intros H. induction a as [|x a IH]; [reflexivity|]. simpl. destruct (a ++ b) eqn:E.
  - apply app_eq_nil in E. tauto.
  - exact IH.
Qed.
Lemma last_map_ne {X Y} (f : X -> Y) l d d' : l <> [] -> last (map f l) d = f (last l d').
Proof.
  intros H. induction l as [|x l IH]; [congruence|]. destruct l as [|y l]; [reflexivity|].
  change (last (map f (y :: l)) d = f (last (y :: l) d')). apply IH. discriminate.
Qed.

Lemma last_row {A} (fs : list (sfactor A)) : last_ok fs ->
  sf_rows fs <> [] /\ Z.to_nat (fst (last (sf_rows fs) (0, 0)%Z) + 1) = nconfs fs.
Proof.
  intros [fs' [F [-> [Hv Hc]]]]. rewrite sf_rows_app, sf_rows_single.
  destruct (sf_vars F) as [|v vs] eqn:Ev; [congruence|]. clear Hv.
  assert (Hn : exists n, length (sf_configs F) = S n).
  { destruct (sf_configs F); [congruence|]. simpl. eauto. }
  destruct Hn as [n Hn]. rewrite Hn, seq_S, flat_map_app, !map_app, app_assoc. cbn [flat_map]. rewrite app_nil_r, Nat.add_0_l.
  split.
  - intros E. apply app_eq_nil in E. destruct E as [_ E]. rewrite map_map in E. simpl in E. discriminate.
  - rewrite last_app_ne by (rewrite map_map; simpl; discriminate).
    rewrite map_map. rewrite (last_map_ne _ _ _ 0) by (simpl; discriminate).
    unfold shift2, nconfs. cbn [fst]. rewrite map_app, list_sum_app. simpl. rewrite Hn. lia.
Qed.

Lemma last_config_ideal {A} starts (fs : list (sfactor A)) : last_ok fs ->
  last_config_plus_1 (ew_ideal starts fs) = Ok (nconfs fs).
Proof.
  intros H. destruct (last_row fs H) as [H1 H2]. unfold last_config_plus_1, ew_ideal. cbn [ew_factor_configs_edge_states].
  destruct (sf_rows fs) eqn:E; [congruence|]. now rewrite H2.
Qed.
Lemma num_val_configs_ideal {A} starts (fs : list (sfactor A)) : last_ok fs ->
  ew_num_val_configs (ew_ideal starts fs) = nconfs fs.
Proof.
  intros H. destruct (last_row fs H) as [H1 H2]. unfold ew_num_val_configs, ew_ideal. cbn [ew_factor_configs_edge_states].
  destruct (sf_rows fs) eqn:E; [congruence|]. now rewrite H2.
Qed.

Lemma concat_snoc {X} (l : list (list X)) x : concat (l ++ [x]) = concat l ++ x.
Proof. rewrite concat_app. simpl. now rewrite app_nil_r. Qed.

Lemma sf_rows_concat {A} starts0 (fss : list (list (sfactor A))) :
  concat (map2 (fun w (off : nat * nat) =>
              map (fun p => (fst p + Z.of_nat (fst off), snd p + Z.of_nat (snd off))%Z)
                  (ew_factor_configs_edge_states w))
           (map (ew_ideal starts0) fss)
           (combine (starts (map nconfs fss)) (starts (map (fun fs => nstates (sf_edges fs)) fss))))
  = sf_rows (concat fss).
Proof.
  induction fss as [|fs fss IH] using rev_ind; [reflexivity|].
  rewrite !map_app. simpl map. rewrite !starts_snoc.
  rewrite combine_app_eq by now rewrite !starts_length, !map_length.
  rewrite map2_app by (rewrite combine_length, !starts_length, !map_length; lia).
  rewrite concat_app, IH, concat_snoc, sf_rows_app. f_equal. simpl. rewrite app_nil_r.
  apply map_ext. intros p. unfold shift2. f_equal; do 2 f_equal.
  - unfold nconfs. clear. induction fss as [|f fss IH]; [reflexivity|]. simpl. rewrite map_app, list_sum_app. now rewrite <- IH.
  - unfold nstates. clear. induction fss as [|f fss IH]; [reflexivity|]. simpl.
    rewrite sf_edges_app, map_app, list_sum_app. now rewrite <- IH.
Qed.

Lemma enum_concatenate_spec {A} starts0 (fss : list (list (sfactor A))) :
  Forall last_ok fss ->
  enum_concatenate_wirings (map (ew_ideal starts0) fss) = Ok (ew_ideal starts0 (concat fss)).
Proof.
  intros HF. unfold enum_concatenate_wirings. destruct fss as [|fs0 fss']; [reflexivity|].
  set (fss := fs0 :: fss') in *. change (map (ew_ideal starts0) fss) with (ew_ideal starts0 fs0 :: map (ew_ideal starts0) fss') at 1.
  cbv iota. rewrite (mapM_map_Ok _ _ nconfs); [|intros fs Hfs; apply last_config_ideal; rewrite Forall_forall in HF; now apply HF].
  cbn [bind]. clearbody fss. f_equal. unfold ew_ideal at 5. f_equal.
  - rewrite map_map. simpl. clear. induction fss as [|f fss IH]; [reflexivity|]. simpl.
    now rewrite sf_edges_app, map_app, IH.
  - rewrite map_map. simpl. clear. induction fss as [|f fss IH]; [reflexivity|]. simpl.
    now rewrite sf_edges_app, edge_var_states_app, IH.
  - rewrite <- (sf_rows_concat starts0). do 3 f_equal. rewrite map_map. reflexivity.
Qed.

Lemma exists_last' {X} (l : list X) : l <> [] -> exists l' x, l = l' ++ [x].
Proof. intros H. destruct (exists_last H) as [l' [x E]]. eauto. Qed.

Lemma has_rows_last {A} (g : fgroup A) : arity_ok g -> has_rows g -> last_ok (group_factors g).
Proof.
  intros [nc [k [Hs Hk]]] [H1 [H2 H3]]. rewrite Hs in H2, H3. cbn [nth] in H2, H3.
  assert (Hne : group_factors g <> []).
  { intros E. apply H1. rewrite <- group_factors_vars, E. reflexivity. }
  destruct (exists_last' _ Hne) as [fs' [F E]]. exists fs', F. split; [exact E|].
  assert (HF : In F (group_factors g)) by (rewrite E; apply in_or_app; right; now left).
  split.
  - intros Ev. assert (Hl : length (sf_vars F) = k) by (apply Hk; rewrite <- group_factors_vars; now apply in_map).
    rewrite Ev in Hl. simpl in Hl. lia.
  - rewrite (group_factors_configs g F HF). intros Ec. pose proof (config_rows_length (fg_configs g)) as Hl.
    rewrite Ec, Hs in Hl. simpl in Hl. lia.
Qed.

Lemma no_rows {A} (g : fgroup A) : arity_ok g -> ~ has_rows g -> sf_rows (group_factors g) = [].
Proof.
  intros [nc [k [Hs Hk]]] H. destruct (sf_rows (group_factors g)) as [|p l] eqn:E; [reflexivity|]. exfalso. apply H.
  assert (Hin : In p (sf_rows (group_factors g))) by (rewrite E; now left). unfold sf_rows in Hin.
  apply in_flat_map in Hin. destruct Hin as [f [Hf Hin]]. apply in_flat_map in Hin. destruct Hin as [c [Hc Hin]].
  apply in_map_iff in Hin. destruct Hin as [u [_ Hu]]. apply in_seq in Hf, Hc, Hu.
  rewrite group_factors_length in Hf.
  assert (HF : In (nth f (group_factors g) (SF [] [] [])) (group_factors g)) by (apply nth_In; rewrite group_factors_length; lia).
  rewrite (group_factors_configs g _ HF), config_rows_length in Hc. split; [|split].
  - destruct (fg_vars g); [simpl in Hf; lia|discriminate].
  - lia.
  - rewrite Hs. cbn [nth]. assert (Hl : length (sf_vars (nth f (group_factors g) (SF [] [] []))) = k).
    { apply Hk. rewrite <- group_factors_vars. now apply in_map. }
    lia.
Qed.

(** Wiring of all the enumeration groups of a graph. *)
Lemma enum_wirings_spec {A} junk starts0 (gs : list (fgroup A)) :
  Forall arity_ok gs ->
  let r := ws <- mapM (fun g => fg_compile_enum junk g starts0) gs ;; enum_concatenate_wirings ws in
  (known starts0 (concat (concat (map fg_vars gs))) -> Forall has_rows gs ->
     r = Ok (ew_ideal starts0 (flat_map group_factors gs))) /\
  (known starts0 (concat (concat (map fg_vars gs))) -> ~ Forall has_rows gs -> r = Raise IndexError) /\
  (~ known starts0 (concat (concat (map fg_vars gs))) -> r = Raise KeyError).
Proof.
  intros HA r. rewrite Forall_forall in HA.
  assert (Hall : known starts0 (concat (concat (map fg_vars gs))) ->
     mapM (fun g => fg_compile_enum junk g starts0) gs = Ok (map (fun g => ew_ideal starts0 (group_factors g)) gs)).
  { intros Hk. apply mapM_all. intros g Hg. apply fg_compile_enum_spec; [now apply HA|].
    intros x Hx. apply Hk. apply in_concat. apply in_concat in Hx. destruct Hx as [vs [H1 H2]].
    exists vs. split; [|exact H2]. apply in_concat. exists (fg_vars g). split; [now apply in_map|exact H1]. }
  split; [|split].
  - intros Hk Hr. unfold r. rewrite (Hall Hk). cbn [bind].
    rewrite <- (map_map group_factors (ew_ideal starts0)). rewrite enum_concatenate_spec.
    + now rewrite flat_map_concat_map.
    + rewrite Forall_forall in *. intros fs Hfs. apply in_map_iff in Hfs. destruct Hfs as [g [<- Hg]].
      apply has_rows_last; auto.
  - intros Hk Hr. unfold r. rewrite (Hall Hk). cbn [bind]. unfold enum_concatenate_wirings.
    destruct gs as [|g0 gs']; [exfalso; apply Hr; constructor|]. set (gs := g0 :: gs') in *.
    assert (E : mapM last_config_plus_1 (map (fun g => ew_ideal starts0 (group_factors g)) gs) = Raise IndexError).
    { clearbody gs. clear r Hall Hk. induction gs as [|g gs IH]; [exfalso; apply Hr; constructor|]. simpl.
      assert (Hd : has_rows g \/ ~ has_rows g).
      { unfold has_rows. destruct (fg_vars g); [right; intros [F _]; congruence|].
        destruct (Nat.lt_ge_cases 0 (nth 0 (shape (fg_configs g)) 0)); [|right; lia].
        destruct (Nat.lt_ge_cases 0 (nth 1 (shape (fg_configs g)) 0)); [|right; lia]. left. split; [discriminate|auto]. }
      destruct Hd as [Hd|Hd].
      - rewrite last_config_ideal by (apply has_rows_last; [apply HA; now left|exact Hd]). cbn [bind].
        rewrite IH; [reflexivity|intros; apply HA; now right|]. intros HF. apply Hr. now constructor.
      - unfold last_config_plus_1 at 1. unfold ew_ideal at 1. cbn [ew_factor_configs_edge_states].
        rewrite no_rows; [reflexivity|apply HA; now left|exact Hd]. }
    rewrite E. reflexivity.
  - intros Hk. unfold r. clear r Hall.
    assert (E : mapM (fun g => fg_compile_enum junk g starts0) gs = Raise KeyError).
    { induction gs as [|g gs IH]; [exfalso; apply Hk; intros x []|]. simpl.
      assert (Hg : arity_ok g) by (apply HA; now left).
      destruct (fg_compile_enum_spec junk g starts0 Hg) as [S1 S2].
      assert (Hd : known starts0 (concat (fg_vars g)) \/ ~ known starts0 (concat (fg_vars g))).
      { destruct (lookup_var_states_spec starts0 (fg_vars g)) as [[H _]|[H _]]; auto. }
      destruct Hd as [Hd|Hd]; [|now rewrite (S2 Hd)]. rewrite (S1 Hd). cbn [bind].
      rewrite IH; [reflexivity|intros; apply HA; now right|]. intros Hk'. apply Hk. simpl. rewrite concat_app.
      intros x Hx. apply in_app_or in Hx. destruct Hx; auto. }
    rewrite E. reflexivity.
Qed.

(** ** Logical wirings *)
Lemma for_range_pair {S T} n (f : nat -> S -> S) (g : nat -> T -> T) s :
  for_range n (fun i st => (f i (fst st), g i (snd st))) s = (for_range n f (fst s), for_range n g (snd s)).
Proof. induction n as [|n IH]; [now destruct s|]. now rewrite !for_range_S, IH. Qed.

Lemma upd_blit {A} i (v : A) xs : upd i (fun _ => v) xs = blit i [v] xs.
Proof. reflexivity. Qed.

(** Parents and children computed from the factor sizes, with two states per edge. *)
Definition raw_parents (rs : nat) (sizes : list nat) : list (Z * Z) :=
  flat_map (fun f => map (fun u => (Z.of_nat f, Z.of_nat (2 * (off sizes f + u) + rs))) (seq 0 (nth f sizes 0 - 1)))
           (seq 0 (length sizes)).
Definition raw_children (rs : nat) (sizes : list nat) : list Z :=
  map (fun f => Z.of_nat (2 * (off sizes f + (nth f sizes 0 - 1)) + rs)) (seq 0 (length sizes)).

Lemma off_map_mul m l i : off (map (fun s => m * s) l) i = m * off l i.
Proof.
  unfold off. revert i; induction l as [|x l IH]; intros [|i]; simpl; try lia. rewrite IH. lia.
Qed.

Lemma arange2_spec e np rs : rs < 2 ->
  arange2 (Z.of_nat e + Z.of_nat rs) (Z.of_nat e + 2 * Z.of_nat np)
  = map (fun u => Z.of_nat (e + 2 * u + rs)) (seq 0 np).
Proof.
  intros H. unfold arange2.
  replace (Z.to_nat ((Z.of_nat e + 2 * Z.of_nat np - (Z.of_nat e + Z.of_nat rs) + 1) / 2)) with np.
  - apply map_ext. intros u. lia.
  - destruct rs as [|[|rs]]; [| |lia].
    + replace (Z.of_nat e + 2 * Z.of_nat np - (Z.of_nat e + Z.of_nat 0) + 1)%Z with (1 + Z.of_nat np * 2)%Z by lia.
      rewrite Z.div_add by lia. simpl. lia.
    + replace (Z.of_nat e + 2 * Z.of_nat np - (Z.of_nat e + Z.of_nat 1) + 1)%Z with (Z.of_nat np * 2)%Z by lia.
      rewrite Z.div_mul by lia. lia.
Qed.

Lemma compile_logical_spec junk rs sizes : rs < 2 ->
  let np := map (fun s => s - 1) sizes in
  compile_logical_wiring_numba (np_empty (fun i => (junk i, junk i)) (last (cumsum0 np) 0))
    (np_empty junk (length sizes)) np (cumsum0 np) (cumsum0 (map (fun s => 2 * s) sizes)) (Z.of_nat rs)
  = (raw_parents rs sizes, raw_children rs sizes).
Proof.
  intros Hrs np. unfold compile_logical_wiring_numba.
  assert (Hlen : length np = length sizes) by apply map_length.
  set (PB := fun f => map (fun u => (Z.of_nat f, Z.of_nat (2 * (off sizes f + u) + rs))) (seq 0 (nth f sizes 0 - 1))).
  set (CB := fun f => [Z.of_nat (2 * (off sizes f + (nth f sizes 0 - 1)) + rs)]).
  assert (Hnp : forall f, f < length sizes -> nth f np 0 = nth f sizes 0 - 1).
  { intros f Hf. unfold np. now rewrite (nth_map _ _ _ _ 0). }
  rewrite (for_range_ext _ _ (fun f st => (blit (0 + off np f) (PB f) (fst st),
                                           blit (0 + off (repeat 1 (length sizes)) f) (CB f) (snd st)))).
  - rewrite (for_range_pair _ (fun f ps => blit (0 + off np f) (PB f) ps)
               (fun f cs => blit (0 + off (repeat 1 (length sizes)) f) (CB f) cs)).
    cbn [fst snd]. f_equal.
    + destruct (for_range_blit np PB 0 (length np) (np_empty (fun i => (junk i, junk i)) (last (cumsum0 np) 0))) as [E1 E2].
      * lia.
      * intros i Hi. unfold PB. rewrite map_length, seq_length. symmetry. apply Hnp. lia.
      * rewrite E1, blit_full.
        -- unfold raw_parents. now rewrite flat_map_concat_map, Hlen.
        -- rewrite E2, np_empty_length, last_cumsum0. now apply off_all.
    + destruct (for_range_blit (repeat 1 (length sizes)) CB 0 (length np) (np_empty junk (length sizes))) as [E1 E2].
      * rewrite repeat_length. lia.
      * intros i Hi. rewrite nth_repeat_lt by lia. reflexivity.
      * rewrite E1, blit_full.
        -- unfold raw_children. rewrite Hlen. unfold CB. clear.
           induction (seq 0 (length sizes)) as [|x l IH]; [reflexivity|]. cbn [map concat app]. f_equal. exact IH.
        -- rewrite E2, np_empty_length, off_repeat by lia. lia.
  - intros f [ps cs] Hf. rewrite Hlen in Hf. cbn [fst snd]. cbv zeta.
    assert (Hlt : f < length np) by lia.
    rewrite Nat.add_1_r. rewrite (nth_cumsum0 np f) by lia. rewrite (nth_cumsum0 np (S f)) by lia.
    rewrite (off_S np f) by lia. rewrite (nth_cumsum0 (map (fun s => 2 * s) sizes) f) by (rewrite map_length; lia).
    rewrite off_map_mul, Hnp by lia. replace (off np f + (nth f sizes 0 - 1) - off np f) with (nth f sizes 0 - 1) by lia.
    f_equal.
    + rewrite arange2_spec by exact Hrs.
      pose proof (config_body (Z.of_nat f)
        (fun u => nth u (map (fun u => Z.of_nat (2 * off sizes f + 2 * u + rs)) (seq 0 (nth f sizes 0 - 1))) 0%Z)
        (off np f) (nth f sizes 0 - 1) ps) as E.
      etransitivity; [exact E|]. simpl. f_equal. unfold PB. apply map_ext_in. intros u Hu. apply in_seq in Hu.
      rewrite nth_map_seq by lia. do 2 f_equal. lia.
    + rewrite upd_blit, off_repeat by lia. unfold CB. f_equal; [lia|]. f_equal. lia.
Qed.

Lemma map_length_concat_off (vss : list (list variable)) f : off (map (@length variable) vss) f = length (concat (firstn f vss)).
Proof. unfold off. now rewrite concat_length, firstn_map. Qed.

Lemma binary_off (es : list variable) e : (forall x, In x es -> snd x = 2) -> e <= length es -> edge_start es e = 2 * e.
Proof.
  intros H He. unfold edge_start. rewrite (map_const _ 2) by exact H. now apply off_repeat.
Qed.

Lemma raw_ideal rs vss : (forall x, In x (concat vss) -> snd x = 2) ->
  (forall vs, In vs vss -> 1 <= length vs) ->
  raw_parents rs (map (@length variable) vss) = lf_parents rs vss /\
  raw_children rs (map (@length variable) vss) = lf_children rs vss.
Proof.
  intros Hb Hpos. unfold raw_parents, raw_children, lf_parents, lf_children. rewrite map_length.
  assert (H : forall f u, f < length vss -> u < length (nth f vss []) ->
     edge_start (concat vss) (lf_first_edge vss f + u) = 2 * (off (map (@length variable) vss) f + u)).
  { intros f u Hf Hu. apply binary_off; [exact Hb|]. unfold lf_first_edge, first_edge. rewrite concat_length.
    apply Nat.lt_le_incl, off_block_lt; [now rewrite map_length|]. rewrite (nth_map _ _ _ _ []) by lia. exact Hu. }
  split.
  - apply flat_map_ext_In. intros f Hf. apply in_seq in Hf. rewrite (nth_map _ _ _ _ []) by lia.
    apply map_ext_in. intros u Hu. apply in_seq in Hu. rewrite H by lia. reflexivity.
  - apply map_ext_in. intros f Hf. apply in_seq in Hf. rewrite (nth_map _ _ _ _ []) by lia.
    assert (1 <= length (nth f vss [])) by (apply Hpos, nth_In; lia).
    rewrite H by lia. reflexivity.
Qed.

(** Factor indices: the distinct values are those of the keys. *)
Lemma has_distinct_keys {X} (idx K : list X) :
  (forall x, In x idx <-> In x K) -> (has_distinct idx (length K) <-> NoDup K).
Proof.
  intros H. split.
  - intros [l' [Hn [Hl Hin]]]. apply (NoDup_incl_NoDup (l:=l')); [exact Hn|lia|].
    intros x Hx. apply H. now apply Hin.
  - intros Hn. exists K. auto.
Qed.

Lemma Znat_seq_NoDup a n : NoDup (map Z.of_nat (seq a n)).
Proof. apply FinFun.Injective_map_NoDup; [intros x y E; lia|apply seq_NoDup]. Qed.

Lemma raw_idx_In rs sizes x : In x (map fst (raw_parents rs sizes)) <->
  exists f, x = Z.of_nat f /\ f < length sizes /\ 2 <= nth f sizes 0.
Proof.
  unfold raw_parents. rewrite map_flat_map, in_flat_map. split.
  - intros [f [Hf Hx]]. apply in_seq in Hf. rewrite map_map in Hx. cbn [fst] in Hx.
    apply in_map_iff in Hx. destruct Hx as [u [<- Hu]]. apply in_seq in Hu. exists f. split; [reflexivity|]. lia.
  - intros [f [-> [H1 H2]]]. exists f. split; [apply in_seq; lia|]. rewrite map_map. cbn [fst].
    apply in_map_iff. exists 0. split; [reflexivity|]. apply in_seq. lia.
Qed.
Lemma raw_children_length rs sizes : length (raw_children rs sizes) = length sizes.
Proof. unfold raw_children. now rewrite map_length, seq_length. Qed.

(** The raw wiring of one logical group. *)
Definition lw_raw (starts : list (variable * nat)) (t : ftype) (vss : list (list variable)) : logical_wiring :=
  {| lw_edges_num_states := map snd (concat vss);
     lw_var_states_for_edges := edge_var_states_2 starts (concat vss);
     lw_parents_edge_states := raw_parents (relevant_state t) (map (@length variable) vss);
     lw_children_edge_states := raw_children (relevant_state t) (map (@length variable) vss);
     lw_edge_states_offset := type_offset t |}.

Lemma logical_accept starts0 t vss :
  (forall vs, In vs vss -> 1 <= length vs) ->
  ((forall vs, In vs vss -> 2 <= length vs) -> LogicalWiring (lw_raw starts0 t vss) = Ok (lw_raw starts0 t vss)) /\
  (~ (forall vs, In vs vss -> 2 <= length vs) -> LogicalWiring (lw_raw starts0 t vss) = Raise ValueError).
Proof.
  intros Hpos. pose proof (LogicalWiring_spec (lw_raw starts0 t vss)) as [S1 S2]. cbv zeta in S1.
  change (lw_children_edge_states (lw_raw starts0 t vss)) with (raw_children (relevant_state t) (map (@length variable) vss)) in S1.
  change (lw_parents_edge_states (lw_raw starts0 t vss)) with (raw_parents (relevant_state t) (map (@length variable) vss)) in S1.
  rewrite raw_children_length, map_length in S1. split.
  - intros H2. apply S1. split; [reflexivity|]. intros Hn.
    assert (Hin : forall x, In x (map fst (raw_parents (relevant_state t) (map (@length variable) vss))) <->
                            In x (map Z.of_nat (seq 0 (length vss)))).
    { intros x. rewrite raw_idx_In, map_length, in_map_iff. split.
      - intros [f [-> [H _]]]. exists f. split; [reflexivity|]. apply in_seq. lia.
      - intros [f [<- Hf]]. apply in_seq in Hf. exists f. split; [reflexivity|]. split; [lia|].
        rewrite (nth_map _ _ _ _ []) by lia. apply H2, nth_In. lia. }
    split; [|split].
    + pose proof (has_distinct_keys _ _ Hin) as Hd. rewrite map_length, seq_length in Hd. apply Hd. apply Znat_seq_NoDup.
    + intros i Hi. apply Hin in Hi. apply in_map_iff in Hi. destruct Hi as [f [<- Hf]]. apply in_seq in Hf. lia.
    + destruct t; simpl; auto.
  - intros Hno. destruct (LogicalWiring (lw_raw starts0 t vss)) as [w'|e] eqn:E; [|f_equal; now apply S2].
    exfalso. apply Hno. destruct (proj1 (S1 w') eq_refl) as [_ E']. clear E. rename E' into E. intros vs Hvs.
    assert (Hn : 0 < length vss) by (destruct vss; [destruct Hvs|simpl; lia]).
    destruct (E Hn) as [[l' [Hnd [Hl Hin]]] _].
    apply (In_nth _ _ []) in Hvs. destruct Hvs as [f [Hf <-]].
    assert (Hincl : incl (map Z.of_nat (seq 0 (length vss))) l').
    { apply NoDup_length_incl; [exact Hnd|rewrite map_length, seq_length; lia|].
      intros x Hx. apply Hin, raw_idx_In in Hx. destruct Hx as [f' [-> [Hf' _]]]. rewrite map_length in Hf'.
      apply in_map, in_seq. lia. }
    assert (Hx : In (Z.of_nat f) l') by (apply Hincl, in_map, in_seq; lia).
    apply Hin, raw_idx_In in Hx. destruct Hx as [f' [Ef [_ H2]]]. apply Nat2Z.inj in Ef. subst f'.
    now rewrite (nth_map _ _ _ _ []) in H2 by lia.
Qed.

Lemma edge_var_states_2_binary starts0 es : (forall x, In x es -> snd x = 2) ->
  edge_var_states_2 starts0 es = edge_var_states starts0 es.
Proof.
  intros H. unfold edge_var_states_2, edge_var_states. apply flat_map_ext_In. intros x Hx. now rewrite (H x Hx).
Qed.
Lemma edge_var_states_2_length starts0 es : length (edge_var_states_2 starts0 es) = 2 * length es.
Proof. unfold edge_var_states_2. induction es as [|x es IH]; [reflexivity|]. cbn [flat_map length]. rewrite app_length, IH, map_length, seq_length. lia. Qed.

Lemma cumsum0_repeat2 n : map (fun k => 2 * k) (seq 0 (n + 1)) = cumsum0 (repeat 2 n).
Proof.
  apply (nth_ext _ _ 0 0); [rewrite map_length, seq_length, cumsum0_length, repeat_length; lia|].
  intros i Hi. rewrite map_length, seq_length in Hi. rewrite nth_map_seq by lia.
  rewrite nth_cumsum0 by (rewrite repeat_length; lia). rewrite off_repeat by lia. lia.
Qed.

Lemma fg_compile_logical_raw {A} junk (g : fgroup A) starts0 :
  (known starts0 (concat (fg_vars g)) ->
     fg_compile_logical junk g starts0 = LogicalWiring (lw_raw starts0 (fg_type g) (fg_vars g))) /\
  (~ known starts0 (concat (fg_vars g)) -> fg_compile_logical junk g starts0 = Raise KeyError).
Proof.
  unfold fg_compile_logical, logical_compile_wiring.
  destruct (lookup_var_states_spec starts0 (fg_vars g)) as [[Hk ->]|[Hk ->]]; cbn [bind].
  2: { split; [contradiction|]. reflexivity. }
  split; [intros _|contradiction]. unfold lw_raw.
  replace ((- type_offset (fg_type g) + 1) / 2)%Z with (Z.of_nat (relevant_state (fg_type g))) by (destruct (fg_type g); reflexivity).
  pose proof (compile_logical_spec junk (relevant_state (fg_type g)) (fg_factor_sizes g)) as HC. cbv zeta in HC.
  rewrite HC by (destruct (fg_type g); simpl; lia).
  f_equal. f_equal. rewrite map_length, cumsum0_repeat2.
  replace (2 * length (concat (fg_vars g))) with (list_sum (repeat 2 (length (concat (fg_vars g))))) by (rewrite list_sum_repeat; lia).
  rewrite compile_var_states_spec by now rewrite map_length, repeat_length.
  rewrite repeat_length. unfold edge_var_states_2. rewrite flat_map_concat_map. f_equal.
  clear. induction (concat (fg_vars g)) as [|x l IH]; [reflexivity|].
  cbn [length repeat map]. rewrite <- IH. cbn [seq map]. f_equal. rewrite <- seq_shift, map_map. reflexivity.
Qed.

Lemma known_dec starts0 es : {known starts0 es} + {~ known starts0 es}.
Proof.
  induction es as [|x es [IH|IH]].
  - left. intros x [].
  - destruct (dget var_eqb x starts0) as [s|] eqn:E.
    + left. intros y [<-|Hy]; eauto.
    + right. intros H. destruct (H x (or_introl eq_refl)) as [s Hs]. congruence.
  - right. intros H. apply IH. intros y Hy. apply H. now right.
Qed.
Lemma fg_compile_logical_junk {A} j1 j2 (g : fgroup A) starts0 :
  fg_compile_logical j1 g starts0 = fg_compile_logical j2 g starts0.
Proof.
  destruct (fg_compile_logical_raw j1 g starts0) as [H1 H2], (fg_compile_logical_raw j2 g starts0) as [H3 H4].
  destruct (known_dec starts0 (concat (fg_vars g))) as [Hk|Hk].
  - now rewrite H1, H3.
  - now rewrite H2, H4.
Qed.

Lemma fg_compile_logical_spec {A} junk (g : fgroup A) starts0 :
  (forall vs, In vs (fg_vars g) -> 1 <= length vs) ->
  (known starts0 (concat (fg_vars g)) -> (forall vs, In vs (fg_vars g) -> 2 <= length vs) ->
     fg_compile_logical junk g starts0 = Ok (lw_raw starts0 (fg_type g) (fg_vars g))) /\
  (known starts0 (concat (fg_vars g)) -> ~ (forall vs, In vs (fg_vars g) -> 2 <= length vs) ->
     fg_compile_logical junk g starts0 = Raise ValueError) /\
  (~ known starts0 (concat (fg_vars g)) -> fg_compile_logical junk g starts0 = Raise KeyError).
Proof.
  intros Hpos. destruct (fg_compile_logical_raw junk g starts0) as [H1 H2].
  destruct (logical_accept starts0 (fg_type g) (fg_vars g) Hpos) as [L1 L2].
  split; [|split; [|exact H2]]; intros Hk H; rewrite (H1 Hk); auto.
Qed.

(** ** Concatenating logical wirings *)
Lemma lw_raw_ideal starts0 t vss : logical_ok vss -> lw_raw starts0 t vss = lw_ideal starts0 t vss.
Proof.
  intros H. assert (Hb : forall x, In x (concat vss) -> snd x = 2).
  { intros x Hx. apply in_concat in Hx. destruct Hx as [vs [H1 H2]]. destruct (H vs H1) as [_ Hb]. now apply Hb. }
  unfold lw_raw, lw_ideal. destruct (raw_ideal (relevant_state t) vss Hb) as [-> ->].
  - intros vs Hvs. destruct (H vs Hvs). lia.
  - now rewrite edge_var_states_2_binary.
Qed.

Lemma lf_parts_app rs a b :
  (forall vs, In vs (a ++ b) -> 1 <= length vs) ->
  lf_parents rs (a ++ b) = lf_parents rs a ++ map (shift2 (length a) (nstates (concat a))) (lf_parents rs b) /\
  lf_children rs (a ++ b) = lf_children rs a ++ map (fun c => (c + Z.of_nat (nstates (concat a)))%Z) (lf_children rs b).
Proof.
  intros Hpos. unfold lf_parents, lf_children. rewrite app_length, seq_app, flat_map_app, map_app.
  assert (H1 : forall f u, f < length a -> u < length (nth f a []) ->
    edge_start (concat (a ++ b)) (lf_first_edge (a ++ b) f + u) = edge_start (concat a) (lf_first_edge a f + u)).
  { intros f u Hf Hu. unfold edge_start, lf_first_edge, first_edge. rewrite map_app, concat_app, map_app.
    rewrite (off_app1 (map (@length variable) a)) by (rewrite map_length; lia). apply off_app1.
    rewrite map_length, concat_length. apply Nat.lt_le_incl, off_block_lt; [now rewrite map_length|].
    rewrite (nth_map _ _ _ _ []) by lia. exact Hu. }
  assert (H2 : forall f u,
    edge_start (concat (a ++ b)) (lf_first_edge (a ++ b) (length a + f) + u)
    = nstates (concat a) + edge_start (concat b) (lf_first_edge b f + u)).
  { intros f u. unfold edge_start, lf_first_edge, first_edge. rewrite map_app, concat_app, map_app.
    replace (length a) with (length (map (@length variable) a)) by apply map_length. rewrite off_app2.
    rewrite <- concat_length.
    replace (length (concat a) + off (map (@length variable) b) f + u)
      with (length (map snd (concat a)) + (off (map (@length variable) b) f + u)) by (rewrite map_length; lia).
    apply off_app2. }
  split; f_equal.
  - apply flat_map_ext_In. intros f Hf. apply in_seq in Hf. rewrite app_nth1 by lia.
    apply map_ext_in. intros u Hu. apply in_seq in Hu. rewrite H1 by lia. reflexivity.
  - simpl. rewrite (seq_plus (length a)), flat_map_map, map_flat_map. apply flat_map_ext_In. intros f Hf.
    rewrite app_nth2_plus, map_map. apply map_ext. intros u. rewrite H2. unfold shift2. cbn [fst snd]. f_equal; lia.
  - apply map_ext_in. intros f Hf. apply in_seq in Hf. rewrite app_nth1 by lia.
    assert (1 <= length (nth f a [])) by (apply Hpos, in_or_app; left; apply nth_In; lia).
    rewrite H1 by lia. reflexivity.
  - simpl. rewrite (seq_plus (length a)), !map_map. apply map_ext. intros f. rewrite app_nth2_plus, H2. lia.
Qed.

Lemma all_but_last_snoc l x : all_but_last_single (l ++ [x]) <-> (forall vss, In vss l -> length vss = 1).
Proof.
  unfold all_but_last_single. rewrite app_length. simpl. split.
  - intros H vss Hv. apply (In_nth _ _ []) in Hv. destruct Hv as [i [Hi <-]]. rewrite <- (H i) by lia.
    now rewrite app_nth1.
  - intros H i Hi. rewrite app_nth1 by lia. apply H, nth_In. lia.
Qed.

Lemma concat_singles_length {X} (l : list (list X)) : (forall x, In x l -> length x = 1) -> length (concat l) = length l.
Proof. intros H. rewrite (concat_length_uniform l 1) by exact H. lia. Qed.

(** The shifted parts of the concatenation. *)
Definition cat_parents (ws : list logical_wiring) : list (Z * Z) :=
  let offs := combine (seq 0 (length ws)) (starts (map (fun w => list_sum (lw_edges_num_states w)) ws)) in
  concat (map2 (fun w (off : nat * nat) =>
              map (fun p => (fst p + Z.of_nat (fst off), snd p + Z.of_nat (snd off))%Z)
                  (lw_parents_edge_states w)) ws offs).
Definition cat_children (ws : list logical_wiring) : list Z :=
  let offs := combine (seq 0 (length ws)) (starts (map (fun w => list_sum (lw_edges_num_states w)) ws)) in
  concat (map2 (fun w (off : nat * nat) =>
              map (fun c => (c + Z.of_nat (snd off))%Z) (lw_children_edge_states w)) ws offs).

Lemma cat_snoc ws w :
  cat_parents (ws ++ [w]) = cat_parents ws ++
     map (shift2 (length ws) (list_sum (map (fun w => list_sum (lw_edges_num_states w)) ws))) (lw_parents_edge_states w) /\
  cat_children (ws ++ [w]) = cat_children ws ++
     map (fun c => (c + Z.of_nat (list_sum (map (fun w => list_sum (lw_edges_num_states w)) ws)))%Z) (lw_children_edge_states w).
Proof.
  unfold cat_parents, cat_children. rewrite app_length, seq_app, map_app. simpl length. simpl (seq (0 + _) 1). simpl map.
  rewrite starts_snoc.
  rewrite combine_app_eq by now rewrite seq_length, starts_length, map_length.
  rewrite !map2_app by (rewrite combine_length, seq_length, starts_length, map_length; lia).
  rewrite !concat_app. simpl. rewrite !app_nil_r. split; reflexivity.
Qed.

Lemma states_sum starts0 t (vsss : list (list (list variable))) :
  list_sum (map (fun w => list_sum (lw_edges_num_states w)) (map (lw_ideal starts0 t) vsss))
  = nstates (concat (concat vsss)).
Proof.
  unfold nstates. induction vsss as [|v l IH]; [reflexivity|]. simpl. rewrite IH.
  now rewrite concat_app, map_app, list_sum_app.
Qed.

Lemma cat_ideal starts0 t vsss :
  (forall vss, In vss vsss -> logical_ok vss) -> all_but_last_single vsss ->
  cat_parents (map (lw_ideal starts0 t) vsss) = lf_parents (relevant_state t) (concat vsss) /\
  cat_children (map (lw_ideal starts0 t) vsss) = lf_children (relevant_state t) (concat vsss).
Proof.
  induction vsss as [|vss vsss IH] using rev_ind; intros Hok Hs; [split; reflexivity|].
  pose proof (proj1 (all_but_last_snoc vsss vss) Hs) as Hs'. clear Hs. rename Hs' into Hs.
  destruct IH as [IH1 IH2].
  { intros v Hv. apply Hok, in_or_app. now left. }
  { intros i Hi. apply Hs, nth_In. lia. }
  rewrite map_app. cbn [map]. destruct (cat_snoc (map (lw_ideal starts0 t) vsss) (lw_ideal starts0 t vss)) as [-> ->].
  rewrite IH1, IH2, states_sum, map_length, concat_snoc.
  destruct (lf_parts_app (relevant_state t) (concat vsss) vss) as [-> ->].
  { intros vs Hvs. rewrite <- concat_snoc in Hvs. apply in_concat in Hvs. destruct Hvs as [v [H1 H2]].
    destruct (Hok v H1 vs H2). lia. }
  rewrite concat_singles_length by exact Hs. split; reflexivity.
Qed.

(** Factor keys of the concatenation. *)
Definition cat_keys (vsss : list (list (list variable))) : list Z :=
  flat_map (fun i => map (fun f => Z.of_nat (i + f)) (seq 0 (length (nth i vsss [])))) (seq 0 (length vsss)).

Lemma cat_keys_snoc l x : cat_keys (l ++ [x]) = cat_keys l ++ map (fun f => Z.of_nat (length l + f)) (seq 0 (length x)).
Proof.
  unfold cat_keys. rewrite app_length, seq_app, flat_map_app. simpl. rewrite app_nil_r. f_equal.
  - apply flat_map_ext_In. intros i Hi. apply in_seq in Hi. now rewrite app_nth1 by lia.
  - now rewrite nth_middle.
Qed.
Lemma cat_keys_length l : length (cat_keys l) = length (concat l).
Proof.
  induction l as [|x l IH] using rev_ind; [reflexivity|].
  rewrite cat_keys_snoc, concat_snoc, !app_length, IH, map_length, seq_length. reflexivity.
Qed.

Lemma lf_idx_In rs vss x : (forall vs, In vs vss -> 2 <= length vs) ->
  In x (map fst (lf_parents rs vss)) <-> exists f, x = Z.of_nat f /\ f < length vss.
Proof.
  intros H. unfold lf_parents. rewrite map_flat_map, in_flat_map. split.
  - intros [f [Hf Hx]]. apply in_seq in Hf. rewrite map_map in Hx. cbn [fst] in Hx.
    apply in_map_iff in Hx. destruct Hx as [u [<- Hu]]. exists f. split; [reflexivity|lia].
  - intros [f [-> Hf]]. exists f. split; [apply in_seq; lia|]. rewrite map_map. cbn [fst].
    apply in_map_iff. exists 0. split; [reflexivity|]. apply in_seq.
    assert (2 <= length (nth f vss [])) by (apply H, nth_In; lia). lia.
Qed.

Lemma cat_idx_In starts0 t vsss x :
  (forall vss, In vss vsss -> logical_ok vss) ->
  In x (map fst (cat_parents (map (lw_ideal starts0 t) vsss))) <-> In x (cat_keys vsss).
Proof.
  induction vsss as [|vss vsss IH] using rev_ind; intros Hok; [reflexivity|].
  rewrite map_app. cbn [map]. destruct (cat_snoc (map (lw_ideal starts0 t) vsss) (lw_ideal starts0 t vss)) as [-> _].
  rewrite cat_keys_snoc, map_app, !in_app_iff, IH by (intros v Hv; apply Hok, in_or_app; now left).
  assert (E : In x (map fst (map (shift2 (length (map (lw_ideal starts0 t) vsss))
      (list_sum (map (fun w => list_sum (lw_edges_num_states w)) (map (lw_ideal starts0 t) vsss))))
      (lw_parents_edge_states (lw_ideal starts0 t vss))))
    <-> In x (map (fun f => Z.of_nat (length vsss + f)) (seq 0 (length vss)))); [|tauto].
  rewrite map_length, map_map. cbn [shift2 fst lw_ideal lw_parents_edge_states].
  rewrite <- (map_map fst (fun i => (i + Z.of_nat (length vsss))%Z)).
  rewrite !in_map_iff. split.
  - intros [y [<- Hy]]. apply lf_idx_In in Hy.
    + destruct Hy as [f [-> Hf]]. exists f. split; [lia|]. apply in_seq. lia.
    + intros vs Hvs. apply (Hok vss); [apply in_or_app; right; now left|exact Hvs].
  - intros [f [<- Hf]]. apply in_seq in Hf. exists (Z.of_nat f). split; [lia|]. apply lf_idx_In.
    + intros vs Hvs. apply (Hok vss); [apply in_or_app; right; now left|exact Hvs].
    + exists f. split; [reflexivity|lia].
Qed.

Lemma cat_keys_singles l : (forall x, In x l -> length x = 1) -> cat_keys l = map Z.of_nat (seq 0 (length l)).
Proof.
  induction l as [|x l IH] using rev_ind; intros H; [reflexivity|].
  rewrite cat_keys_snoc, app_length, seq_app, map_app, IH by (intros y Hy; apply H, in_or_app; now left).
  rewrite (H x) by (apply in_or_app; right; now left). simpl. now rewrite Nat.add_0_r.
Qed.
Lemma cat_keys_consecutive l x : (forall y, In y l -> length y = 1) ->
  cat_keys (l ++ [x]) = map Z.of_nat (seq 0 (length (concat (l ++ [x])))).
Proof.
  intros H. rewrite cat_keys_snoc, cat_keys_singles by exact H.
  rewrite concat_snoc, app_length, concat_singles_length by exact H.
  rewrite seq_app, map_app. f_equal. simpl. rewrite (seq_plus (length l)), map_map. reflexivity.
Qed.

Lemma cat_keys_dup vsss : (forall vss, In vss vsss -> vss <> []) ->
  NoDup (cat_keys vsss) -> all_but_last_single vsss.
Proof.
  intros Hne Hnd i Hi. unfold cat_keys in Hnd.
  destruct (Nat.eq_dec (length (nth i vsss [])) 1) as [E|E]; [exact E|exfalso].
  assert (H1 : 0 < length (nth i vsss [])).
  { assert (Hin : In (nth i vsss []) vsss) by (apply nth_In; lia). apply Hne in Hin. destruct (nth i vsss []); [congruence|simpl; lia]. }
  assert (H2 : 0 < length (nth (S i) vsss [])).
  { assert (Hin : In (nth (S i) vsss []) vsss) by (apply nth_In; lia). apply Hne in Hin. destruct (nth (S i) vsss []); [congruence|simpl; lia]. }
  assert (E2 : seq 0 (length vsss) = seq 0 i ++ [i; S i] ++ seq (i + 2) (length vsss - (i + 2))).
  { replace (length vsss) with (i + (2 + (length vsss - (i + 2)))) at 1 by lia. rewrite !seq_app. reflexivity. }
  rewrite E2, !flat_map_app in Hnd. cbn [flat_map] in Hnd. rewrite app_nil_r in Hnd.
  apply NoDup_app_remove_l in Hnd. apply NoDup_app_remove_r in Hnd.
  apply (NoDup_app_disjoint _ _ Hnd (Z.of_nat (S i))).
  - apply in_map_iff. exists 1. split; [lia|]. apply in_seq. lia.
  - apply in_map_iff. exists 0. split; [lia|]. apply in_seq. lia.
Qed.
