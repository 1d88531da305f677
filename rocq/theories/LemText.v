(** * run_bp computes textbook belief propagation (towards C39). *)
From Verif Require Import NumPy Lists FGraph BPState BP SpecFGraph SpecFactor SpecWiring SpecState SpecBP SpecText.
From Verif Require Import LemFGraph LemWiring LemGraph LemState LemNum LemNorm LemVtoF LemEnum LemLogCode LemLogical LemLogBP.
From Coq Require Import Reals Lra Lia.
Local Open Scope nat_scope.

(** ** Concatenating lists of factors *)
Section App.
  Context {A : Type} (fs1 fs2 : list (sfactor A)).
  Let fs := fs1 ++ fs2.
  Lemma factor_app1 f : f < length fs1 -> factor_at fs f = factor_at fs1 f.
  Proof. intros H. unfold factor_at, fs. now rewrite app_nth1. Qed.
  Lemma factor_app2 f : factor_at fs (length fs1 + f) = factor_at fs2 f.
  Proof. unfold factor_at, fs. rewrite app_nth2 by lia. f_equal. lia. Qed.
  Lemma arity_app1 f : f < length fs1 -> arity fs f = arity fs1 f.
  Proof. intros H. unfold arity. now rewrite factor_app1. Qed.
  Lemma arity_app2 f : arity fs (length fs1 + f) = arity fs2 f.
  Proof. unfold arity. now rewrite factor_app2. Qed.
  Lemma var_app1 f u : f < length fs1 -> var_at fs f u = var_at fs1 f u.
  Proof. intros H. unfold var_at. now rewrite factor_app1. Qed.
  Lemma var_app2 f u : var_at fs (length fs1 + f) u = var_at fs2 f u.
  Proof. unfold var_at. now rewrite factor_app2. Qed.
  Lemma choices_app1 f u s : f < length fs1 -> choices fs f u s = choices fs1 f u s.
  Proof. intros H. unfold choices, config_at_slot. now rewrite factor_app1. Qed.
  Lemma choices_app2 f u s : choices fs (length fs1 + f) u s = choices fs2 f u s.
  Proof. unfold choices, config_at_slot. now rewrite factor_app2. Qed.
  Lemma score_app1 pots v f c : f < length fs1 -> score fs pots v f c = score fs1 pots v f c.
  Proof. intros H. unfold score, config_at_slot. now rewrite arity_app1, factor_app1. Qed.
  Lemma score_but_app1 pots v f c u : f < length fs1 -> score_but fs pots v f c u = score_but fs1 pots v f c u.
  Proof. intros H. unfold score_but, config_at_slot. now rewrite arity_app1, factor_app1. Qed.
  Lemma score_but_app2 pots v f c u :
    score_but fs pots v (length fs1 + f) c u = score_but fs2 (fun f => pots (length fs1 + f)) (fun f => v (length fs1 + f)) f c u.
  Proof. unfold score_but, config_at_slot. now rewrite arity_app2, factor_app2. Qed.
  Lemma fac_to_var_app1 pots T v f u s : f < length fs1 -> fac_to_var fs pots T v f u s = fac_to_var fs1 pots T v f u s.
  Proof.
    intros H. unfold fac_to_var. destruct (Req_EM_T T 0); unfold fac_to_var_max, fac_to_var_soft; rewrite choices_app1 by exact H.
    - f_equal. apply map_ext. intros c. now apply score_but_app1.
    - f_equal. f_equal. f_equal. apply map_ext. intros c. now rewrite score_but_app1.
  Qed.
  Lemma fac_to_var_app2 pots T v f u s : fac_to_var fs pots T v (length fs1 + f) u s
    = fac_to_var fs2 (fun f => pots (length fs1 + f)) T (fun f => v (length fs1 + f)) f u s.
  Proof.
    unfold fac_to_var. destruct (Req_EM_T T 0); unfold fac_to_var_max, fac_to_var_soft; rewrite choices_app2.
    - f_equal. apply map_ext. intros c. now apply score_but_app2.
    - f_equal. f_equal. f_equal. apply map_ext. intros c. now rewrite score_but_app2.
  Qed.
  Lemma first_edge_app2 f : sf_first_edge fs (length fs1 + f) = length (sf_edges fs1) + sf_first_edge fs2 f.
  Proof.
    unfold sf_first_edge, first_edge, fs. rewrite map_app. replace (length fs1) with (length (map (fun F : sfactor A => length (sf_vars F)) fs1)) by apply map_length.
    rewrite off_app2. f_equal. unfold sf_edges. rewrite concat_length, map_map. reflexivity.
  Qed.
  Lemma slot_app1 f u s : f < length fs1 -> u < arity fs1 f -> slot_index fs f u s = slot_index fs1 f u s.
  Proof.
    intros Hf Hu. unfold slot_index. f_equal. unfold edge_start, fs. rewrite sf_edges_app, map_app.
    assert (E : sf_first_edge (fs1 ++ fs2) f = sf_first_edge fs1 f).
    { unfold sf_first_edge, first_edge. rewrite map_app, off_app1; [reflexivity|]. rewrite map_length. lia. }
    rewrite E. apply off_app1. rewrite map_length. assert (L : edge_no fs1 (f, u) < length (sf_edges fs1)) by (apply edge_no_lt, In_slots; auto).
    unfold edge_no in L. cbn [fst snd] in L. lia.
  Qed.
  Lemma slot_app2 f u s : slot_index fs (length fs1 + f) u s = total_states fs1 + slot_index fs2 f u s.
  Proof.
    unfold slot_index. rewrite first_edge_app2. unfold edge_start, fs, total_states. rewrite sf_edges_app, map_app.
    rewrite <- Nat.add_assoc. rewrite <- (map_length snd (sf_edges fs1)) at 1. rewrite off_app2. lia.
  Qed.
  Lemma total_states_app : total_states fs = total_states fs1 + total_states fs2.
  Proof. unfold total_states, fs. now rewrite sf_edges_app, map_app, list_sum_app. Qed.
  Context (a1 a2 : list R).
  Hypothesis Ha1 : length a1 = total_states fs1.
  Lemma read_app1 f u s : f < length fs1 -> u < arity fs1 f -> s < snd (var_at fs1 f u) ->
    read_msgs fs (a1 ++ a2) f u s = read_msgs fs1 a1 f u s.
  Proof.
    intros Hf Hu Hs. unfold read_msgs. rewrite slot_app1 by assumption. apply app_nth1. rewrite Ha1. now apply slot_index_lt.
  Qed.
  Lemma read_app2 f u s : read_msgs fs (a1 ++ a2) (length fs1 + f) u s = read_msgs fs2 a2 f u s.
  Proof. unfold read_msgs. rewrite slot_app2, app_nth2 by lia. f_equal. lia. Qed.
End App.

Lemma choice_iff {A} (fs : list (sfactor A)) f u s c :
  In c (choices fs f u s) <-> c < length (sf_configs (factor_at fs f)) /\ config_at_slot fs f c u = s.
Proof. unfold choices. rewrite filter_In, in_seq, Nat.eqb_eq. intuition lia. Qed.

(** ** Congruence *)
Section Cong.
  Context {A : Type} (fs : list (sfactor A)).
  Lemma msg_eq_sym m m' : msg_eq fs m m' -> msg_eq fs m' m.
  Proof. intros H f u s Hf Hu Hs. symmetry. now apply H. Qed.
  Lemma msg_eq_trans m1 m2 m3 : msg_eq fs m1 m2 -> msg_eq fs m2 m3 -> msg_eq fs m1 m3.
  Proof. intros H1 H2 f u s Hf Hu Hs. rewrite H1 by assumption. now apply H2. Qed.
  Lemma msg_eq_upto_refl m m' : msg_eq fs m m' -> msg_eq_upto fs m m'.
  Proof. intros H f u Hf Hu. exists 0%R. intros s Hs. rewrite H by assumption. lra. Qed.
  Lemma upto_trans m1 m2 m3 : msg_eq_upto fs m1 m2 -> msg_eq_upto fs m2 m3 -> msg_eq_upto fs m1 m3.
  Proof.
    intros H1 H2 f u Hf Hu. destruct (H1 f u Hf Hu) as [k1 E1]. destruct (H2 f u Hf Hu) as [k2 E2].
    exists (k1 + k2)%R. intros s Hs. rewrite E1, E2 by assumption. lra.
  Qed.
  Lemma upto_sym m m' : msg_eq_upto fs m m' -> msg_eq_upto fs m' m.
  Proof. intros H f u Hf Hu. destruct (H f u Hf Hu) as [k E]. exists (- k)%R. intros s Hs. rewrite E by assumption. lra. Qed.

  Lemma In_slots_of x f u : In (f, u) (slots_of fs x) <-> f < length fs /\ u < arity fs f /\ var_at fs f u = x.
  Proof.
    unfold slots_of. rewrite filter_In, In_slots. cbn [fst snd]. rewrite var_eqb_eq. tauto.
  Qed.
  Lemma var_to_fac_cong ev ev' m m' :
    (forall f u s, f < length fs -> u < arity fs f -> s < snd (var_at fs f u) -> ev (var_at fs f u) s = ev' (var_at fs f u) s) ->
    msg_eq fs m m' -> msg_eq fs (var_to_fac fs ev m) (var_to_fac fs ev' m').
  Proof.
    intros He Hm f u s Hf Hu Hs. unfold var_to_fac. rewrite He by assumption. f_equal. apply rsum_ext.
    intros [g w] H. apply filter_In in H. destruct H as [H _]. apply In_slots_of in H. destruct H as [Hg [Hw E]].
    apply Hm; cbn [fst snd]; auto. now rewrite E.
  Qed.

  Context (pots : nat -> nat -> R).
  Hypothesis Hok : configs_ok fs.
  Lemma config_ok f c u : f < length fs -> c < length (sf_configs (factor_at fs f)) -> u < arity fs f -> config_at_slot fs f c u < snd (var_at fs f u).
  Proof. intros Hf Hc Hu. destruct (Hok f c u Hf Hc) as [_ H]. specialize (H Hu). unfold config_at_slot. lia. Qed.
  Lemma score_but_cong v v' f c u : msg_eq fs v v' -> f < length fs -> c < length (sf_configs (factor_at fs f)) ->
    score_but fs pots v f c u = score_but fs pots v' f c u.
  Proof.
    intros Hv Hf Hc. unfold score_but. f_equal. apply rsum_ext. intros w Hw. apply filter_In in Hw. destruct Hw as [Hw _]. apply in_seq in Hw.
    apply Hv; [exact Hf|lia|apply config_ok; auto; lia].
  Qed.
  Lemma score_cong v v' f c : msg_eq fs v v' -> f < length fs -> c < length (sf_configs (factor_at fs f)) ->
    score fs pots v f c = score fs pots v' f c.
  Proof.
    intros Hv Hf Hc. unfold score. f_equal. apply rsum_ext. intros w Hw. apply in_seq in Hw.
    apply Hv; [exact Hf|lia|apply config_ok; auto; lia].
  Qed.
  Lemma fac_to_var_cong T v v' : msg_eq fs v v' -> msg_eq fs (fac_to_var fs pots T v) (fac_to_var fs pots T v').
  Proof.
    intros Hv f u s Hf Hu Hs. unfold fac_to_var. destruct (Req_EM_T T 0); unfold fac_to_var_max, fac_to_var_soft.
    - f_equal. apply map_ext_in. intros c Hc. apply choice_iff in Hc. now apply score_but_cong.
    - f_equal. f_equal. apply rsum_ext. intros c Hc. apply choice_iff in Hc. now rewrite (score_but_cong v v').
  Qed.
  Lemma in_range_cong ne T v v' : ne <= length fs -> msg_eq fs v v' -> in_range fs pots ne T v -> in_range fs pots ne T v'.
  Proof.
    intros Hne Hv [H1 H2]. split.
    - intros f u s Hf Hu Hs. destruct (H1 f u s Hf Hu Hs) as [c [Hc E]]. exists c. split; [exact Hc|]. intros HT.
      rewrite <- (score_cong v v'); [now apply E|exact Hv|lia|]. apply choice_iff in Hc. apply Hc.
    - intros HT f u s s' Hf Hu Hs Hs'. rewrite <- !Hv by (auto; lia). now apply H2.
  Qed.
End Cong.

Section Normal.
  Context {A : Type} (fs : list (sfactor A)).
  Lemma normal_upto m m' : (forall f u, f < length fs -> u < arity fs f -> 0 < snd (var_at fs f u)) ->
    msg_eq_upto fs m m' -> msg_eq fs (normal fs m) (normal fs m').
  Proof.
    intros Hpos H f u s Hf Hu Hs. destruct (H f u Hf Hu) as [k E]. unfold normal. f_equal. rewrite E by exact Hs.
    rewrite (map_ext_in (m f u) (fun s => (m' f u s + k)%R)) by (intros x Hx; apply in_seq in Hx; apply E; lia).
    rewrite rmaxs_shift; [lra|]. specialize (Hpos f u Hf Hu). destruct (snd (var_at fs f u)); [lia|discriminate].
  Qed.
  Lemma damp_upto d m m' n n' : msg_eq fs m m' -> msg_eq_upto fs n n' -> msg_eq_upto fs (damp d m n) (damp d m' n').
  Proof.
    intros Hm Hn f u Hf Hu. destruct (Hn f u Hf Hu) as [k E]. exists ((1 - d) * k)%R. intros s Hs. unfold damp.
    rewrite (Hm f u s), E by assumption. lra.
  Qed.
  (** The flat arrays. *)
  Let lens := map snd (sf_edges fs).
  Lemma slot_edge f u s : f < length fs -> u < arity fs f -> s < snd (var_at fs f u) ->
    slot_index fs f u s = off lens (sf_first_edge fs f + u) + s /\ sf_first_edge fs f + u < length lens /\
    nth (sf_first_edge fs f + u) lens 0 = snd (var_at fs f u).
  Proof.
    intros Hf Hu Hs. split; [reflexivity|]. unfold lens. split.
    - rewrite map_length. change (edge_no fs (f, u) < length (sf_edges fs)). apply edge_no_lt, In_slots. auto.
    - rewrite slot_states by assumption. reflexivity.
  Qed.
  Lemma segment_slot a f u : list_sum lens = length a -> f < length fs -> u < arity fs f -> 0 < snd (var_at fs f u) ->
    segment lens a (sf_first_edge fs f + u) = map (read_msgs fs a f u) (seq 0 (snd (var_at fs f u))).
  Proof.
    intros Ha Hf Hu Hs. destruct (slot_edge f u 0 Hf Hu Hs) as [_ [He En]].
    apply (nth_ext _ _ 0%R 0%R); [rewrite segment_length, map_length, seq_length by auto; exact En|].
    intros i Hi. rewrite segment_length, En in Hi by auto. rewrite nth_map_seq by exact Hi. unfold segment. rewrite nth_slice by lia. reflexivity.
  Qed.
  Lemma normalize_read a : supported lens -> list_sum lens = length a -> above_floor lens a ->
    msg_eq fs (read_msgs fs (normalize_and_clip_msgs a lens (nat_max lens))) (normal fs (read_msgs fs a)).
  Proof.
    intros Hsup Ha Hfl f u s Hf Hu Hs. destruct (slot_edge f u s Hf Hu Hs) as [Es [He En]].
    unfold read_msgs at 1. rewrite Es, nth_normalize_ok by (auto; now rewrite En).
    unfold normal. rewrite segment_slot by (auto; lia). unfold read_msgs at 2. rewrite Es. reflexivity.
  Qed.
  Lemma positive_states : supported lens -> forall f u, f < length fs -> u < arity fs f -> 0 < snd (var_at fs f u).
  Proof.
    intros [_ H] f u Hf Hu. apply H. unfold lens. apply in_map. unfold sf_edges. apply in_concat.
    exists (sf_vars (factor_at fs f)). split; [apply in_map; now apply nth_In|]. now apply nth_In.
  Qed.
End Normal.

(** ** Legal configurations *)
Definition sf_ok {A} (F : sfactor A) : Prop :=
  forall row, In row (sf_configs F) -> length row = length (sf_vars F) /\
    forall u, u < length (sf_vars F) -> (0 <= nth u row 0 < Z.of_nat (snd (nth u (sf_vars F) (0%Z, 0%nat))))%Z.
Lemma configs_ok_iff {A} (fs : list (sfactor A)) : Forall sf_ok fs -> configs_ok fs.
Proof.
  intros H f c u Hf Hc. rewrite Forall_forall in H. specialize (H (factor_at fs f) (nth_In _ _ Hf) _ (nth_In _ [] Hc)).
  destruct H as [H1 H2]. split; [exact H1|]. intros Hu. now apply H2.
Qed.
Lemma logical_sf_ok {A} (z : A) t vs : 2 <= length vs -> binary_vars vs -> sf_ok (logical_sf z t vs).
Proof.
  intros Hl Hb row Hr. cbn [logical_sf sf_configs sf_vars] in *. unfold logical_configs in Hr. apply in_map_iff in Hr.
  destruct Hr as [b [<- Hin]]. apply LemBrute.In_bools in Hin. destruct Hin as [Lb Hin]. split; [rewrite app_length, Lb; cbn; lia|].
  intros u Hu. rewrite (Hb (nth u vs (0%Z, 0))) by now apply nth_In. destruct (Nat.lt_ge_cases u (length b)).
  - rewrite app_nth1 by assumption. destruct (Hin (nth u b 0%Z)) as [->| ->]; [now apply nth_In|cbn; lia|cbn; lia].
  - rewrite app_nth2 by assumption. replace (u - length b) with 0 by lia. cbn [nth]. unfold connective.
    destruct t; match goal with |- context [if ?x then _ else _] => destruct x end; cbn; lia.
Qed.
Lemma group_sf_ok {A} (g : fgroup A) : fg_type g = TEnum -> valid_group g -> Forall sf_ok (group_factors g).
Proof.
  intros Ht Hv. unfold valid_group in Hv. rewrite Ht in Hv. destruct Hv as [nc [_ Hv]].
  apply Forall_forall. intros F HF. unfold group_factors in HF. apply in_map_iff in HF. destruct HF as [[i vs] [<- Hin]].
  apply in_combine_r in Hin. cbn [fst snd]. destruct (Hv vs Hin) as [Hs Hc]. intros row Hr. cbn [sf_configs sf_vars] in *.
  unfold config_rows in Hr. rewrite Hs in Hr. cbn [nth] in Hr. apply in_map_iff in Hr. destruct Hr as [r [<- Hr]]. apply in_seq in Hr.
  split; [now rewrite map_length, seq_length|]. intros u Hu. rewrite nth_map_seq by exact Hu. cbn [Nat.add].
  apply (Hc r u); [lia|]. now apply nth_error_nth'.
Qed.

Section Graph.
  Context (G : per_type (list (fgroup R))).
  Hypothesis Hwf : wf_groups G.
  Let fsE := enum_factors G.
  Let vO := logical_factors TOr G.
  Let vA := logical_factors TAnd G.
  Let fsO := map (logical_sf 0%R TOr) vO.
  Let fsA := map (logical_sf 0%R TAnd) vA.
  Let fs := graph_factors 0%R G.
  Let ne := length fsE.

  Lemma logical_ok_type t : t <> TEnum -> logical_ok (logical_factors t G).
  Proof.
    intros Ht vs Hvs. unfold logical_factors in Hvs. apply in_concat in Hvs. destruct Hvs as [vss [H1 H2]].
    apply in_map_iff in H1. destruct H1 as [g [<- Hg]]. destruct (wf_logical G t Hwf Ht g Hg) as [_ [_ H]]. now apply H.
  Qed.
  Lemma graph_sf_ok : Forall sf_ok fs.
  Proof.
    unfold fs, graph_factors. rewrite !Forall_app. split; [|split].
    - apply Forall_forall. intros F HF. unfold enum_factors in HF. apply in_flat_map in HF. destruct HF as [g [Hg HF]].
      destruct (Hwf TEnum g Hg) as [Ht [Hv _]]. pose proof (group_sf_ok g Ht Hv) as H. rewrite Forall_forall in H. now apply H.
    - apply Forall_forall. intros F HF. apply in_map_iff in HF. destruct HF as [vs [<- Hvs]].
      destruct (logical_ok_type TOr ltac:(discriminate) vs Hvs). now apply logical_sf_ok.
    - apply Forall_forall. intros F HF. apply in_map_iff in HF. destruct HF as [vs [<- Hvs]].
      destruct (logical_ok_type TAnd ltac:(discriminate) vs Hvs). now apply logical_sf_ok.
  Qed.
  Lemma graph_configs_ok : configs_ok fs.
  Proof. apply configs_ok_iff, graph_sf_ok. Qed.
  Lemma enum_configs_ok : configs_ok fsE.
  Proof. apply configs_ok_iff. pose proof graph_sf_ok as H. unfold fs, graph_factors in H. apply Forall_app in H. apply H. Qed.
  Lemma logical_edges t vss : sf_edges (map (logical_sf 0%R t) vss) = concat vss.
  Proof. unfold sf_edges. rewrite map_map. cbn [logical_sf sf_vars]. now rewrite map_id. Qed.
  Lemma graph_edges : sf_edges fs = all_edges G.
  Proof.
    unfold fs, graph_factors. rewrite !sf_edges_app, !logical_edges. unfold enum_factors. rewrite enum_edges_all.
    unfold all_edges, all_groups, pt_values, logical_factors. cbn [concat pt_get]. rewrite !app_nil_r, !map_app, !concat_app. reflexivity.
  Qed.
End Graph.

Lemma blit_mid {X} (p v w q : list X) : length v = length w -> blit (length p) v (p ++ w ++ q) = p ++ v ++ q.
Proof.
  intros H. rewrite blit_app by (rewrite !app_length; lia). rewrite firstn_app, Nat.sub_diag, firstn_all. cbn [firstn]. rewrite app_nil_r.
  f_equal. f_equal. rewrite skipn_app. rewrite skipn_all2 by lia. cbn [app]. rewrite skipn_app.
  rewrite skipn_all2 by lia. cbn [app]. replace (length p + length v - length p - length w) with 0 by lia. reflexivity.
Qed.
Lemma pass_enum_length (vt lp : list R) rows n T : length (pass_enum_fac_to_var_messages vt rows lp n T) = length vt.
Proof.
  unfold pass_enum_fac_to_var_messages. destruct (neqb T n0); unfold vsub, vadd; rewrite ?map2_length, ?map_length, ?scatter_length, ?repeat_length; lia.
Qed.
Lemma pass_logical_length (vt : list R) ps cs o T : length (pass_logical_fac_to_var_messages vt ps cs o T) = length vt.
Proof. unfold pass_logical_fac_to_var_messages, scatter_set. now rewrite !scatter_length, repeat_length. Qed.

(** Potentials matter only factor by factor. *)
Lemma fac_to_var_pots {A} (fs : list (sfactor A)) pots pots' T v f u s :
  (forall c, c < length (sf_configs (factor_at fs f)) -> pots f c = pots' f c) ->
  fac_to_var fs pots T v f u s = fac_to_var fs pots' T v f u s.
Proof.
  intros H. unfold fac_to_var. destruct (Req_EM_T T 0); unfold fac_to_var_max, fac_to_var_soft.
  - f_equal. apply map_ext_in. intros c Hc. apply choice_iff in Hc. unfold score_but. now rewrite H.
  - f_equal. f_equal. apply rsum_ext. intros c Hc. apply choice_iff in Hc. unfold score_but. now rewrite H.
Qed.

(** Logical factors at any temperature. *)
Lemma logical_text t vss (vt : list R) T : t <> TEnum -> logical_ok vss ->
  let fs := map (logical_sf 0%R t) vss in
  let new := read_msgs fs (pass_logical_fac_to_var_messages vt (lf_parents (relevant_state t) vss) (lf_children (relevant_state t) vss) (type_offset t) T) in
  length vt = total_states fs ->
  (T = 0%R -> forall f u s s', f < length fs -> u < arity fs f -> s < 2 -> s' < 2 ->
     (neg_inf < read_msgs fs vt f u s - read_msgs fs vt f u s')%R) ->
  msg_eq_upto fs new (fac_to_var fs no_pots T (read_msgs fs vt)) /\
  (forall f u, f < length fs -> u < arity fs f -> exists s, s < snd (var_at fs f u) /\ new f u s = 0%R).
Proof.
  intros Ht Hok fs new Hvt Hd.
  assert (Hd' : T = 0%R -> forall f u, f < length vss -> u < nth f (par_counts vss) 0 ->
    (neg_inf < read_msgs fs vt f u (1 - relevant_state t)%nat - read_msgs fs vt f u (relevant_state t))%R).
  { intros HT f u Hf Hu. apply Hd; [exact HT|unfold fs; now rewrite map_length| | |].
    + unfold fs. rewrite (arity_logical 0%R t vss Hok f Hf). lia.
    + destruct t; cbn; lia.
    + destruct t; cbn; lia. }
  split.
  - unfold fac_to_var. destruct (Req_EM_T T 0) as [->|HT].
    + apply logical_max_lemma; [exact Hok|exact Ht|exact Hvt|]. exact (Hd' eq_refl).
    + now apply logical_soft_lemma.
  - intros f u Hf Hu. unfold fs in Hf. rewrite map_length in Hf. exists (relevant_state t). split.
    + unfold fs in *. rewrite (states_logical 0%R t vss Hok f u Hf Hu). destruct t; cbn; lia.
    + unfold fs in Hu. rewrite (arity_logical 0%R t vss Hok f Hf) in Hu. unfold new. apply (logical_grounded 0%R t vss Hok Ht vt Hvt T Hd' f u Hf). lia.
Qed.

Lemma enum_text (fs : list (sfactor R)) (vt lp : list R) T : configs_ok fs -> length vt = total_states fs -> length lp = total_configs fs ->
  in_range fs (read_pots fs lp) (length fs) T (read_msgs fs vt) ->
  msg_eq fs (read_msgs fs (pass_enum_fac_to_var_messages vt (sf_rows fs) lp (total_configs fs) T))
    (fac_to_var fs (read_pots fs lp) T (read_msgs fs vt)).
Proof.
  intros Hok Hvt Hlp [Hr _] f u s Hf Hu Hs. unfold fac_to_var. destruct (Hr f u s Hf Hu Hs) as [c [Hc Hge]].
  destruct (Req_EM_T T 0) as [->|HT].
  - etransitivity; [exact (enum_max_lemma fs Hok vt lp Hvt Hlp f u s Hf Hu Hs)|]. apply floor_max; auto. exists c. auto.
  - apply (enum_soft_lemma fs Hok vt lp Hvt Hlp T HT f u s Hf Hu Hs). intros E. rewrite E in Hc. destruct Hc.
Qed.

Section Pass.
  Context (G : per_type (list (fgroup R))).
  Hypothesis Hwf : wf_groups G.
  Let fsE := enum_factors G.
  Let vO := logical_factors TOr G.
  Let vA := logical_factors TAnd G.
  Let fsO := map (logical_sf 0%R TOr) vO.
  Let fsA := map (logical_sf 0%R TAnd) vA.
  Let fs := graph_factors 0%R G.
  Let ne := length fsE.

  Lemma graph_fs : fs = fsE ++ fsO ++ fsA. Proof. reflexivity. Qed.
  Lemma type_states t : total group_states (pt_get t G) = match t with TEnum => total_states fsE | TOr => total_states fsO | TAnd => total_states fsA end.
  Proof.
    rewrite <- edges_states_sum. unfold total_states. destruct t; unfold fsE, fsO, fsA; rewrite ?logical_edges; [|reflexivity|reflexivity].
    unfold enum_factors. now rewrite enum_edges_all.
  Qed.
  Lemma enum_pots_total : total group_pots (pt_enum G) = total_configs fsE.
  Proof. symmetry. apply enum_nconfs_all. intros g Hg. exact (Hwf TEnum g Hg). Qed.

  Context (junk : nat -> Z) (g : fgraph R) (st : fg_state R).
  Hypothesis HG : gr_groups g = G.
  Hypothesis Hst : compile_fg_state junk g = Ok st.

  (** The update splits by factor type. *)
  Lemma pass_split T lp vE vO' vA' : length vE = total_states fsE -> length vO' = total_states fsO -> length vA' = total_states fsA ->
    pass_fac_to_var_messages st T lp (vE ++ vO' ++ vA')
    = pass_enum_fac_to_var_messages vE (sf_rows fsE) (slice lp 0 (total_configs fsE)) (total_configs fsE) T
      ++ pass_logical_fac_to_var_messages vO' (lf_parents 0 vO) (lf_children 0 vO) 1 T
      ++ pass_logical_fac_to_var_messages vA' (lf_parents (match vA with [] => 0 | _ => 1 end) vA) (lf_children (match vA with [] => 0 | _ => 1 end) vA)
           (match vA with [] => 1 | _ => -1 end)%Z T.
  Proof.
    intros LE LO LA. pose proof (C18_state_lemma junk g st) as C18. rewrite HG in C18. specialize (C18 Hwf Hst). cbv zeta in C18.
    destruct C18 as [_ [_ [_ [_ [NV _]]]]].
    destruct (compile_fg_state_inv _ _ _ Hst) as [w [Hw [Est _]]]. rewrite HG in *.
    apply compile_wirings_iff in Hw; [|exact Hwf]. destruct Hw as [_ [_ [_ [_ Ew]]]].
    destruct (compute_offsets_spec G) as [R1 [R2 _]].
    assert (M : forall t, pt_get t (st_msgs_range st) = (type_start group_states t G, type_start group_states t G + total group_states (pt_get t G))).
    { intros t. rewrite Est. cbn [mk_fg_state st_msgs_range]. rewrite ?HG. apply R1. }
    assert (P : forall t, pt_get t (st_pots_range st) = (type_start group_pots t G, type_start group_pots t G + total group_pots (pt_get t G))).
    { intros t. rewrite Est. cbn [mk_fg_state st_pots_range]. rewrite ?HG. apply R2. }
    pose proof (type_states TEnum) as SE. pose proof (type_states TOr) as SO. pose proof (type_states TAnd) as SA. cbn [pt_get] in SE, SO, SA.
    pose proof enum_pots_total as PE.
    unfold pass_fac_to_var_messages.
    pose proof (M TEnum) as ME. pose proof (M TOr) as MO. pose proof (M TAnd) as MA. pose proof (P TEnum) as PE'.
    cbn [pt_get type_start Nat.add] in ME, MO, MA, PE', NV. rewrite ME, MO, MA, PE'. rewrite PE' in NV. cbn [fst snd] in NV |- *.
    rewrite NV, PE, Nat.sub_0_r, SE, SO, SA.
    assert (Ww : st_wiring st = w) by (rewrite Est; reflexivity). rewrite Ww, Ew. cbn [w_enum w_or w_and ew_ideal ew_factor_configs_edge_states].
    destruct (lw_type_fields (gr_vars_to_starts g) TOr (logical_factors TOr G)) as [_ [_ [O1 [O2 O3]]]]. rewrite O1, O2, O3.
    assert (AA : lw_parents_edge_states (lw_type (gr_vars_to_starts g) TAnd (logical_factors TAnd G)) = lf_parents (match vA with [] => 0 | _ => 1 end) vA /\
      lw_children_edge_states (lw_type (gr_vars_to_starts g) TAnd (logical_factors TAnd G)) = lf_children (match vA with [] => 0 | _ => 1 end) vA /\
      lw_edge_states_offset (lw_type (gr_vars_to_starts g) TAnd (logical_factors TAnd G)) = (match vA with [] => 1 | _ => -1 end)%Z).
    { unfold vA. destruct (logical_factors TAnd G); repeat split; reflexivity. }
    destruct AA as [-> [-> ->]]. cbn [relevant_state type_offset].
    replace (match logical_factors TOr G with [] => 1%Z | _ => 1%Z end) with 1%Z by (destruct (logical_factors TOr G); reflexivity).
    assert (S1 : slice (vE ++ vO' ++ vA') 0 (total_states fsE) = vE).
    { rewrite <- LE. unfold slice. cbn [skipn]. rewrite Nat.sub_0_r, firstn_app, Nat.sub_diag, firstn_all. cbn [firstn]. apply app_nil_r. }
    assert (S2 : slice (vE ++ vO' ++ vA') (total_states fsE) (total_states fsE + total_states fsO) = vO').
    { rewrite <- LE, <- LO. apply slice_app_mid. }
    assert (S3 : slice (vE ++ vO' ++ vA') (total_states fsE + total_states fsO) (total_states fsE + total_states fsO + total_states fsA) = vA').
    { rewrite <- LE, <- LO, <- LA. rewrite app_assoc, <- app_length. rewrite <- (app_nil_r vA') at 1. apply slice_app_mid. }
    rewrite S1, S2, S3. rewrite !app_length. change (@n0 R RNum) with 0%R. rewrite !repeat_app.
    set (NE := pass_enum_fac_to_var_messages _ _ _ _ _).
    set (NO := pass_logical_fac_to_var_messages vO' _ _ _ _). set (NA := pass_logical_fac_to_var_messages vA' _ _ _ _).
    assert (LNE : length NE = length vE) by apply pass_enum_length.
    assert (LNO : length NO = length vO') by apply pass_logical_length.
    assert (LNA : length NA = length vA') by apply pass_logical_length.
    change (blit 0 NE (repeat 0%R (length vE) ++ repeat 0%R (length vO') ++ repeat 0%R (length vA')))
      with (blit (length (@nil R)) NE ([] ++ repeat 0%R (length vE) ++ repeat 0%R (length vO') ++ repeat 0%R (length vA'))).
    rewrite blit_mid by (now rewrite repeat_length). cbn [app].
    replace (total_states fsE) with (length NE) by congruence. rewrite blit_mid by (now rewrite repeat_length).
    replace (total_states fsO) with (length NO) by congruence. rewrite <- app_length.
    rewrite app_assoc. rewrite <- (app_nil_r (repeat 0%R (length vA'))). rewrite blit_mid by (now rewrite repeat_length).
    now rewrite app_nil_r, <- app_assoc.
  Qed.

  Lemma pass_read_strong T lp vt : length vt = total_states fs -> total_configs fsE <= length lp ->
    in_range fs (graph_pots G lp) ne T (read_msgs fs vt) ->
    let new := read_msgs fs (pass_fac_to_var_messages st T lp vt) in
    let text := fac_to_var fs (graph_pots G lp) T (read_msgs fs vt) in
    forall f u, f < length fs -> u < arity fs f ->
      (f < ne -> forall s, s < snd (var_at fs f u) -> new f u s = text f u s) /\
      (ne <= f -> (exists k, forall s, s < snd (var_at fs f u) -> new f u s = (text f u s + k)%R) /\
                  (exists s, s < snd (var_at fs f u) /\ new f u s = 0%R)).
  Proof.
    intros Hvt Hlp Hr. rewrite graph_fs in Hvt. rewrite !total_states_app in Hvt.
    set (vE := firstn (total_states fsE) vt). set (vO' := firstn (total_states fsO) (skipn (total_states fsE) vt)).
    set (vA' := skipn (total_states fsO) (skipn (total_states fsE) vt)).
    assert (Ev : vt = vE ++ vO' ++ vA') by (unfold vE, vO', vA'; now rewrite !firstn_skipn).
    assert (LE : length vE = total_states fsE) by (unfold vE; rewrite firstn_length; lia).
    assert (LO : length vO' = total_states fsO) by (unfold vO'; rewrite firstn_length, skipn_length; lia).
    assert (LA : length vA' = total_states fsA) by (unfold vA'; rewrite !skipn_length; lia).
    rewrite Ev in Hr |- *. rewrite pass_split by assumption. clear Ev. clearbody vE vO' vA'. clear vt Hvt.
    set (NE := pass_enum_fac_to_var_messages _ _ _ _ _).
    set (NO := pass_logical_fac_to_var_messages vO' _ _ _ _). set (NA := pass_logical_fac_to_var_messages vA' _ _ _ _).
    assert (LNE : length NE = total_states fsE) by (unfold NE; now rewrite pass_enum_length).
    assert (LNO : length NO = total_states fsO) by (unfold NO; now rewrite pass_logical_length).
    set (v := read_msgs fs (vE ++ vO' ++ vA')) in *.
    assert (VE : msg_eq fsE (read_msgs fsE vE) v).
    { intros f u s Hf Hu Hs. unfold v. rewrite graph_fs. symmetry. now apply read_app1. }
    assert (VO : forall f u s, f < length fsO -> u < arity fsO f -> s < snd (var_at fsO f u) -> read_msgs fsO vO' f u s = v (ne + f) u s).
    { intros f u s Hf Hu Hs. unfold v. rewrite graph_fs. unfold ne. rewrite read_app2 by exact LE. symmetry. now apply read_app1. }
    assert (VA : forall f u s, read_msgs fsA vA' f u s = v (ne + (length fsO + f)) u s).
    { intros f u s. unfold v. rewrite graph_fs. unfold ne. rewrite read_app2 by exact LE. now rewrite read_app2 by exact LO. }
    destruct Hr as [HrE HrL].
    assert (Hne : ne <= length fs) by (rewrite graph_fs, app_length; unfold ne; lia).
    assert (okOA : configs_ok fsO /\ configs_ok fsA).
    { pose proof (graph_sf_ok G Hwf) as H. unfold graph_factors in H. rewrite !Forall_app in H. split; apply configs_ok_iff; apply H. }
    destruct okOA as [okO okA].
    cbv zeta. intros f u Hf Hu.
    destruct (Nat.lt_ge_cases f ne) as [Hfe|Hfe].
    - split; [intros _|intros; lia]. intros s Hs. rewrite graph_fs in *. rewrite arity_app1 in Hu by exact Hfe. rewrite var_app1 in Hs by exact Hfe.
      rewrite read_app1 by assumption.
      set (lpE := slice lp 0 (total_configs fsE)) in *.
      assert (LlpE : length lpE = total_configs fsE) by (unfold lpE; rewrite slice_length; lia).
      assert (PE : forall f c, f < ne -> c < length (sf_configs (factor_at fsE f)) -> read_pots fsE lpE f c = graph_pots G lp f c).
      { intros f' c Hf' Hc. unfold graph_pots. fold fsE. fold ne. destruct (Nat.ltb_spec f' ne); [|lia]. unfold read_pots, lpE.
        rewrite nth_slice; [reflexivity|]. pose proof (first_config_lt fsE f' c Hf' Hc). unfold total_configs. lia. }
      rewrite fac_to_var_app1 by exact Hfe.
      etransitivity; [apply enum_text; try assumption; [apply (enum_configs_ok G Hwf)|]|].
      + split; [|intros _ f' u' s' s'' Hf'; lia]. intros f' u' s' Hf' Hu' Hs'.
        destruct (HrE f' u' s') as [c [Hc Hge]]; [exact Hf'|now rewrite arity_app1|now rewrite var_app1|].
        rewrite choices_app1 in Hc by exact Hf'. exists c. split; [exact Hc|]. intros HT. specialize (Hge HT). apply choice_iff in Hc. destruct Hc as [Hc _].
        rewrite score_app1 in Hge by exact Hf'.
        rewrite (score_cong fsE (read_pots fsE lpE) (enum_configs_ok G Hwf) _ v f' c VE Hf' Hc). unfold score in *. now rewrite PE.
      + rewrite (fac_to_var_cong fsE _ (enum_configs_ok G Hwf) T _ v VE f u s Hfe Hu Hs). apply fac_to_var_pots. intros c Hc. now apply PE.
    - split; [intros; lia|intros _]. replace f with (ne + (f - ne)) in * by lia. set (f1 := f - ne) in *. clearbody f1. rewrite graph_fs in *. unfold ne in *.
      rewrite app_length in Hf. rewrite arity_app2 in Hu. rewrite var_app2.
      assert (Hp : forall f c, graph_pots G lp (length fsE + f) c = 0%R).
      { intros f' c. unfold graph_pots. fold fsE. destruct (Nat.ltb_spec (length fsE + f') (length fsE)); [lia|reflexivity]. }
      destruct (Nat.lt_ge_cases f1 (length fsO)) as [Hfo|Hfo].
      + rewrite arity_app1 in Hu by exact Hfo. rewrite var_app1 by exact Hfo.
        destruct (logical_text TOr vO vO' T ltac:(discriminate) (logical_ok_type G Hwf TOr ltac:(discriminate)) LO) as [Hkk Hz]; [|destruct (Hkk f1 u Hfo Hu) as [k Hk]].
        { intros HT f' u' s s' Hf' Hu' Hs Hs'. fold fsO in Hf', Hu' |- *.
          assert (S2 : snd (var_at fsO f' u') = 2). { apply (states_logical 0%R TOr vO (logical_ok_type G Hwf TOr ltac:(discriminate))); [unfold fsO in Hf'; now rewrite map_length in Hf'|exact Hu']. }
          rewrite !VO by (auto; now rewrite S2). unfold ne. apply (HrL HT); [rewrite !app_length; lia|now rewrite arity_app2, arity_app1| |]; rewrite var_app2, var_app1 by exact Hf'; now rewrite S2. }
        fold fsO in Hk, Hz. cbn [relevant_state type_offset] in Hk, Hz. split.
        2:{ destruct (Hz f1 u Hfo Hu) as [s [Hs E]]. exists s. split; [exact Hs|]. rewrite read_app2 by exact LNE. rewrite read_app1 by assumption. exact E. }
        exists k. intros s Hs. rewrite read_app2 by exact LNE. rewrite read_app1 by assumption. rewrite fac_to_var_app2, fac_to_var_app1 by exact Hfo.
        unfold NO. rewrite Hk by exact Hs. f_equal.
        rewrite (fac_to_var_cong fsO no_pots okO T _ (fun f => v (length fsE + f)) VO f1 u s Hfo Hu Hs).
        apply fac_to_var_pots. intros c _. symmetry. apply Hp.
      + replace f1 with (length fsO + (f1 - length fsO)) in * by lia. set (f2 := f1 - length fsO) in *. clearbody f2.
        rewrite app_length in Hf. rewrite arity_app2 in Hu. rewrite var_app2. assert (Hfa : f2 < length fsA) by lia.
        destruct (logical_text TAnd vA vA' T ltac:(discriminate) (logical_ok_type G Hwf TAnd ltac:(discriminate)) LA) as [Hkk Hz]; [|destruct (Hkk f2 u Hfa Hu) as [k Hk]].
        { intros HT f' u' s s' Hf' Hu' Hs Hs'. fold fsA in Hf', Hu' |- *.
          assert (S2 : snd (var_at fsA f' u') = 2). { apply (states_logical 0%R TAnd vA (logical_ok_type G Hwf TAnd ltac:(discriminate))); [unfold fsA in Hf'; now rewrite map_length in Hf'|exact Hu']. }
          rewrite !VA. unfold ne. apply (HrL HT); [rewrite !app_length; lia|now rewrite !arity_app2| |]; rewrite !var_app2; now rewrite S2. }
        fold fsA in Hk, Hz. cbn [relevant_state type_offset] in Hk, Hz.
        assert (ENA : NA = pass_logical_fac_to_var_messages vA' (lf_parents 1 vA) (lf_children 1 vA) (-1) T).
        { unfold NA. destruct vA as [|v0 vr] eqn:EvA; [cbn in Hfa; lia|reflexivity]. }
        rewrite <- ENA in Hk, Hz. split.
        2:{ destruct (Hz f2 u Hfa Hu) as [s [Hs E]]. exists s. split; [exact Hs|]. rewrite read_app2 by exact LNE. rewrite read_app2 by exact LNO. exact E. }
        exists k. intros s Hs. rewrite read_app2 by exact LNE. rewrite read_app2 by exact LNO. rewrite !fac_to_var_app2.
        rewrite Hk by exact Hs. f_equal.
        rewrite (fac_to_var_cong fsA no_pots okA T (read_msgs fsA vA') (fun f => v (length fsE + (length fsO + f))) ltac:(intros ? ? ? _ _ _; apply VA) f2 u s Hfa Hu Hs).
        apply fac_to_var_pots. intros c _. symmetry. apply Hp.
  Qed.
  Lemma pass_read T lp vt : length vt = total_states fs -> total_configs fsE <= length lp ->
    in_range fs (graph_pots G lp) ne T (read_msgs fs vt) ->
    msg_eq_upto fs (read_msgs fs (pass_fac_to_var_messages st T lp vt)) (fac_to_var fs (graph_pots G lp) T (read_msgs fs vt)).
  Proof.
    intros Hvt Hlp Hr f u Hf Hu. destruct (pass_read_strong T lp vt Hvt Hlp Hr f u Hf Hu) as [P1 P2].
    destruct (Nat.lt_ge_cases f ne) as [Hl|Hl]; [|apply (P2 Hl)]. exists 0%R. intros s Hs. rewrite Rplus_0_r. now apply P1.
  Qed.
End Pass.
