(** * Proofs about shifted evidence (C40). *)
From Verif Require Import NumPy Lists VGroup FGraph BPState BP SpecVGroup SpecFGraph SpecFactor SpecWiring SpecState SpecBP SpecText SpecBeliefs.
From Verif Require Import LemFGraph LemState LemNum LemNorm LemVtoF LemLogBP LemText LemRun LemBeliefs.
From Coq Require Import Reals Lra Lia.
Local Open Scope nat_scope.

(** ** Textbook messages *)
Section Shift.
  Context {A : Type} (fs : list (sfactor A)) (pots : nat -> nat -> R).
  Hypothesis Hcfg : configs_ok fs.
  Hypothesis Hcov : covered fs.

  Lemma rsum_shift {X} (f g : X -> R) l : rsum (map (fun x => f x + g x)%R l) = (rsum (map f l) + rsum (map g l))%R.
  Proof. apply rsum_plus. Qed.
  Lemma score_but_shift (k : nat -> nat -> R) v v' f c u : f < length fs -> c < length (sf_configs (factor_at fs f)) ->
    (forall u s, u < arity fs f -> s < snd (var_at fs f u) -> v f u s = (v' f u s + k f u)%R) ->
    score_but fs pots v f c u = (score_but fs pots v' f c u + rsum (map (k f) (filter (fun u' => negb (u' =? u)) (seq 0 (arity fs f)))))%R.
  Proof.
    intros Hf Hc Hv. unfold score_but. rewrite Rplus_assoc, <- rsum_plus. f_equal. apply rsum_ext. intros w Hw.
    apply filter_In in Hw. destruct Hw as [Hw _]. apply in_seq in Hw. apply Hv; [lia|]. apply (config_ok fs); auto; lia.
  Qed.
  Lemma fac_to_var_shift T v v' : msg_eq_upto fs v v' -> msg_eq_upto fs (fac_to_var fs pots T v) (fac_to_var fs pots T v').
  Proof.
    intros Hv f u Hf Hu.
    assert (Hk : exists k : nat -> R, forall u s, u < arity fs f -> s < snd (var_at fs f u) -> v f u s = (v' f u s + k u)%R).
    { assert (G : forall n, n <= arity fs f -> exists k : nat -> R, forall u s, u < n -> s < snd (var_at fs f u) -> v f u s = (v' f u s + k u)%R).
      { induction n as [|n IH]; intros Hn; [exists (fun _ => 0%R); lia|]. destruct IH as [k Ek]; [lia|]. destruct (Hv f n Hf) as [x Ex]; [lia|].
        exists (fun j => if j =? n then x else k j). intros w s Hw Hs. destruct (Nat.eqb_spec w n) as [->|Hne]; [now apply Ex|apply Ek; [lia|exact Hs]]. }
      apply (G (arity fs f)). lia. }
    destruct Hk as [k Ek]. set (K := rsum (map k (filter (fun u' => negb (u' =? u)) (seq 0 (arity fs f))))).
    exists K. intros s Hs. specialize (Hcov f u s Hf Hu Hs).
    assert (E : forall c, In c (choices fs f u s) -> score_but fs pots v f c u = (score_but fs pots v' f c u + K)%R).
    { intros c Hc. apply choice_iff in Hc. apply (score_but_shift (fun _ => k)); [exact Hf|apply Hc|exact Ek]. }
    unfold fac_to_var. destruct (Req_EM_T T 0) as [HT|HT]; unfold fac_to_var_max, fac_to_var_soft.
    - rewrite (map_ext_in _ (fun c => score_but fs pots v' f c u + K)%R) by exact E. now apply rmaxs_shift.
    - rewrite (map_ext_in _ (fun c => exp (K / T) * exp (score_but fs pots v' f c u / T))%R).
      + rewrite rsum_scal, ln_mult, ln_exp; [field; exact HT|apply exp_pos|]. apply rsum_pos; [destruct (choices fs f u s); [contradiction|discriminate]|].
        intros y Hy. apply in_map_iff in Hy. destruct Hy as [z [<- _]]. apply exp_pos.
      + intros c Hc. rewrite E by exact Hc. rewrite <- exp_plus. f_equal. field. exact HT.
  Qed.
  Lemma var_to_fac_shift ev ev' (k : variable -> R) m m' :
    (forall x s, In x (sf_edges fs) -> s < snd x -> ev' x s = (ev x s + k x)%R) -> msg_eq fs m m' ->
    msg_eq_upto fs (var_to_fac fs ev' m') (var_to_fac fs ev m).
  Proof.
    intros He Hm f u Hf Hu. exists (k (var_at fs f u)). intros s Hs. unfold var_to_fac. rewrite He by (auto; now apply var_in_edges).
    assert (E : rsum (map (fun fu => m' (fst fu) (snd fu) s) (filter (fun fu => negb (slot_eqb fu (f, u))) (slots_of fs (var_at fs f u))))
      = rsum (map (fun fu => m (fst fu) (snd fu) s) (filter (fun fu => negb (slot_eqb fu (f, u))) (slots_of fs (var_at fs f u))))); [|lra].
    apply rsum_ext. intros [g w] Hi. apply filter_In in Hi. destruct Hi as [Hi _]. apply In_slots_of in Hi. destruct Hi as [H1 [H2 H3]].
    cbn [fst snd]. symmetry. apply Hm; [exact H1|exact H2|now rewrite H3].
  Qed.
  Lemma text_belief_shift ev ev' k m m' x s : (ev' x s = ev x s + k)%R -> msg_eq fs m m' -> s < snd x ->
    text_belief fs ev' m' x s = (text_belief fs ev m x s + k)%R.
  Proof.
    intros He Hm Hs. unfold text_belief. rewrite He.
    assert (E : rsum (map (fun fu => m' (fst fu) (snd fu) s) (slots_of fs x)) = rsum (map (fun fu => m (fst fu) (snd fu) s) (slots_of fs x))); [|lra].
    apply rsum_ext. intros [g w] Hi. apply In_slots_of in Hi. destruct Hi as [H1 [H2 H3]]. cbn [fst snd]. symmetry. apply Hm; [exact H1|exact H2|now rewrite H3].
  Qed.
End Shift.

(** One step of a textbook run; [covered] is only needed when there is a step. *)
Lemma text_bp_shift {A} (fs : list (sfactor A)) pots T d ev ev' (k : variable -> R) m n :
  configs_ok fs -> (0 < n -> covered fs) -> (forall f u, f < length fs -> u < arity fs f -> 0 < snd (var_at fs f u)) ->
  (forall x s, In x (sf_edges fs) -> s < snd x -> ev' x s = (ev x s + k x)%R) ->
  msg_eq fs (text_bp fs pots T d ev' m n) (text_bp fs pots T d ev m n).
Proof.
  intros Hcfg Hcov Hpos He. induction n as [|n IH]; [intros f u s _ _ _; reflexivity|].
  change (msg_eq fs (text_step fs pots T d ev' (text_bp fs pots T d ev' m n)) (text_step fs pots T d ev (text_bp fs pots T d ev m n))).
  specialize (Hcov (Nat.lt_0_succ n)). specialize (IH (fun _ => Hcov)). unfold text_step. apply normal_upto; [exact Hpos|]. apply damp_upto; [exact IH|].
  apply (fac_to_var_shift fs pots Hcfg Hcov). apply (var_to_fac_shift fs ev ev' k); [exact He|now apply msg_eq_sym].
Qed.

(** ** The graph *)
Lemma graph_covered (G : per_type (list (fgroup R))) : wf_groups G ->
  (forall f u s, f < length (enum_factors G) -> u < arity (graph_factors 0%R G) f -> s < snd (var_at (graph_factors 0%R G) f u) -> choices (graph_factors 0%R G) f u s <> []) ->
  covered (graph_factors 0%R G).
Proof.
  intros Hwf H f u s Hf Hu Hs. destruct (Nat.lt_ge_cases f (length (enum_factors G))) as [Hl|Hl]; [now apply H|].
  revert Hf Hu Hs. rewrite (graph_fs G). set (fsE := enum_factors G) in *.
  set (fsO := map (logical_sf 0%R TOr) (logical_factors TOr G)). set (fsA := map (logical_sf 0%R TAnd) (logical_factors TAnd G)).
  replace f with (length fsE + (f - length fsE)) by lia. generalize (f - length fsE). clear f Hl H. intros f.
  rewrite arity_app2, var_app2, choices_app2, !app_length. intros Hf.
  destruct (Nat.lt_ge_cases f (length fsO)) as [Hl|Hl].
  - rewrite arity_app1, var_app1, choices_app1 by exact Hl. intros Hu Hs.
    exact (logical_covered 0%R TOr (logical_factors TOr G) (logical_ok_type G Hwf TOr ltac:(discriminate)) ltac:(discriminate) (fun _ _ _ => 0%R) f u s Hl Hu Hs).
  - replace f with (length fsO + (f - length fsO)) by lia. rewrite arity_app2, var_app2, choices_app2. intros Hu Hs.
    exact (logical_covered 0%R TAnd (logical_factors TAnd G) (logical_ok_type G Hwf TAnd ltac:(discriminate)) ltac:(discriminate) (fun _ _ _ => 0%R) (f - length fsO) u s ltac:(fold fsA; lia) Hu Hs).
Qed.

(** Arrays with the same messages are equal. *)
Lemma read_ext {A} (fs : list (sfactor A)) (x y : list R) : length x = total_states fs -> length y = total_states fs ->
  msg_eq fs (read_msgs fs x) (read_msgs fs y) -> x = y.
Proof.
  intros Hx Hy H. unfold total_states in *. rewrite (flat_as_map _ x Hx), (flat_as_map _ y Hy). apply map_ext_in. intros [e s] Hp.
  apply In_positions in Hp. rewrite map_length in Hp. cbn [fst snd] in *. destruct Hp as [He Hs].
  assert (Hi : In e (map (edge_no fs) (slots fs))) by (rewrite edges_slots; apply in_seq; lia).
  apply in_map_iff in Hi. destruct Hi as [[f u] [<- Hi]]. apply In_slots in Hi. cbn [fst snd] in Hi. destruct Hi as [Hf Hu].
  change (edge_no fs (f, u)) with (sf_first_edge fs f + u) in *. rewrite slot_states in Hs by assumption. apply (H f u s Hf Hu Hs).
Qed.

Section Graph.
  Context (vgs : list vgroup) (g : fgraph R) (T : R) (c : bp_ctx R).
  Hypothesis Hok : groups_ok vgs.
  Hypothesis Hr : reachable vgs g.
  Hypothesis Hwf : wf_groups (gr_groups g).
  Hypothesis Hbp : bp_of g T c.
  Context (a : bp_arrays R) (ev' : list R) (k : variable -> R).
  Hypothesis Ha : arrays_of c a.
  Let a' := {| ba_log_potentials := ba_log_potentials a; ba_ftov_msgs := ba_ftov_msgs a; ba_evidence := ev' |}.
  Let fs := graph_factors 0%R (gr_groups g).
  Let pots := graph_pots (gr_groups g) (ba_log_potentials a).
  Let ne := length (enum_factors (gr_groups g)).
  Let lens := map snd (sf_edges fs).
  Let evs := read_ev (gr_vars_to_starts g).
  Hypothesis Hlen : length ev' = length (ba_evidence a).
  Hypothesis Hshift : forall x s, In x (all_vars vgs) -> s < snd x -> evs ev' x s = (evs (ba_evidence a) x s + k x)%R.

  Lemma shifted_arrays : arrays_of c a'.
  Proof. destruct Ha as [A1 [A2 A3]]. split; [exact A1|]. split; [exact A2|]. cbn. congruence. Qed.
  Lemma edges_vars x : In x (sf_edges fs) -> In x (all_vars vgs).
  Proof.
    intros Hx. destruct Hbp as [junk [bs [Hc _]]]. destruct (compiled_edges _ _ _ Hwf Hc) as [K1 _]. rewrite <- (graph_edges (gr_groups g)) in K1.
    destruct (K1 x Hx) as [t Et]. destruct (C06_lemma _ _ Hok Hr) as [_ [C2 _]]. apply (C2 _ _ Et).
  Qed.
  Lemma in_range_covered v : in_range fs pots ne T v -> covered fs.
  Proof.
    intros [H _]. apply (graph_covered (gr_groups g) Hwf). intros f u s Hf Hu Hs E. destruct (H f u s Hf Hu Hs) as [x [Hx _]]. fold fs in E. rewrite E in Hx. destruct Hx.
  Qed.

  Lemma C40_lemma d n : supported lens ->
    (forall b, b = a \/ b = a' -> forall i,
       (i <= n -> above_floor lens (unnormalised c b d i)) /\
       (i < n -> in_range fs pots ne T (var_to_fac fs (evs (ba_evidence b)) (text_bp fs pots T d (evs (ba_evidence b)) (read_msgs fs (ba_ftov_msgs a)) i)))) ->
    ba_ftov_msgs (run_bp c a' n d) = ba_ftov_msgs (run_bp c a n d).
  Proof.
    intros Hsup H. apply (read_ext fs).
    - apply (run_length vgs g T c Hok Hr Hwf Hbp a' shifted_arrays).
    - apply (run_length vgs g T c Hok Hr Hwf Hbp a Ha).
    - eapply msg_eq_trans.
      + apply (C39_lemma vgs g T c Hok Hr Hwf Hbp a' shifted_arrays d n Hsup); intros i Hi; apply (H a' (or_intror eq_refl) i); exact Hi.
      + eapply msg_eq_trans; [|apply msg_eq_sym, (C39_lemma vgs g T c Hok Hr Hwf Hbp a Ha d n Hsup); intros i Hi; apply (H a (or_introl eq_refl) i); exact Hi].
        apply (text_bp_shift _ _ _ _ _ _ k).
        * now apply graph_configs_ok.
        * intros Hn. destruct (H a (or_introl eq_refl) 0) as [_ H0]. apply (in_range_covered _ (H0 Hn)).
        * apply positive_states. exact Hsup.
        * intros x s Hx Hs. apply Hshift; [now apply edges_vars|exact Hs].
  Qed.

  Lemma C40_beliefs_lemma (msgs : list R) : length msgs = length (ba_ftov_msgs a) ->
    (forall gr n, In gr vgs -> In n (vg_num_states gr) -> 0 < n) ->
    let b0 := {| ba_log_potentials := ba_log_potentials a; ba_ftov_msgs := msgs; ba_evidence := ba_evidence a |} in
    let b1 := {| ba_log_potentials := ba_log_potentials a; ba_ftov_msgs := msgs; ba_evidence := ev' |} in
    exists r r', get_beliefs c b0 = Ok r /\ get_beliefs c b1 = Ok r' /\
    forall gr, In gr vgs -> exists d d', dget vg_eqb gr r = Some d /\ dget vg_eqb gr r' = Some d' /\
      per_state_shape gr d /\ per_state_shape gr d' /\
      forall i x, nth_error (vg_variables gr) i = Some x -> row gr d' i = map (ext_add (k x)) (row gr d i).
  Proof.
    intros Hm Hpos b0 b1. destruct Ha as [A1 [A2 A3]].
    assert (Hb0 : arrays_of c b0) by (split; [exact A1|]; split; [cbn; congruence|exact A3]).
    assert (Hb1 : arrays_of c b1) by (split; [exact A1|]; split; cbn; congruence).
    destruct (C33_lemma vgs g T c Hok Hr Hwf Hbp b0 Hb0 Hpos) as [r [Er [_ Dr]]].
    destruct (C33_lemma vgs g T c Hok Hr Hwf Hbp b1 Hb1 Hpos) as [r' [Er' [_ Dr']]].
    exists r, r'. split; [exact Er|]. split; [exact Er'|]. intros gr Hg.
    destruct (Dr gr Hg) as [d [Ed [Sd Rd]]]. destruct (Dr' gr Hg) as [d' [Ed' [Sd' Rd']]]. exists d, d'.
    split; [exact Ed|]. split; [exact Ed'|]. split; [exact Sd|]. split; [exact Sd'|]. intros i x Hi.
    rewrite (Rd i x Hi), (Rd' i x Hi), map_app, map_map. cbn [ba_evidence ba_ftov_msgs b0 b1]. f_equal.
    - apply map_ext_in. intros s Hs. apply in_seq in Hs. cbn [ext_add]. f_equal.
      apply (text_belief_shift fs (evs (ba_evidence a)) (evs ev') (k x)); [|intros f u t _ _ _; reflexivity|lia].
      apply Hshift; [|lia]. unfold all_vars. apply in_concat. exists (vg_variables gr). split; [now apply in_map|]. eapply nth_error_In. exact Hi.
    - generalize (state_axis gr i - snd x). intros j. induction j as [|j IHj]; [reflexivity|]. cbn. now rewrite <- IHj.
  Qed.

  (** With hypotheses about the inputs only. *)
  Lemma C40_bounded_lemma B P D K d n :
    moderate fs pots ne (evs (ba_evidence a)) B P D K -> moderate fs pots ne (evs ev') B P D K ->
    (0 <= T)%R -> (0 <= d <= 1)%R -> supported lens -> above_floor lens (ba_ftov_msgs a) ->
    ba_ftov_msgs (run_bp c a' n d) = ba_ftov_msgs (run_bp c a n d).
  Proof.
    intros M M' HT Hd Hsup Hfl. apply C40_lemma; [exact Hsup|]. intros b [-> | ->] i; split; intros Hi.
    - apply (above_floor_run vgs g T c Hok Hr Hwf Hbp a Ha B P D K M HT Hsup Hfl d Hd n). exact Hi.
    - apply (in_range_text g T Hwf a B P D K M).
    - apply (above_floor_run vgs g T c Hok Hr Hwf Hbp a' shifted_arrays B P D K M' HT Hsup Hfl d Hd n). exact Hi.
    - apply (in_range_text g T Hwf a' B P D K M').
  Qed.

  Lemma gibbs_shift (b b' : nat -> R) x n s : (forall t, t < n -> b' t = (b t + x)%R) -> s < n -> gibbs b' n s = gibbs b n s.
  Proof.
    intros H Hs. unfold gibbs. rewrite (map_ext_in _ (fun t => exp x * exp (b t))%R).
    - rewrite rsum_scal, H by exact Hs. rewrite exp_plus. pose proof (exp_pos x).
      assert (0 < rsum (map (fun t => exp (b t)) (seq 0 n)))%R; [|field; lra].
      apply rsum_pos; [destruct n; [lia|discriminate]|]. intros y Hy. apply in_map_iff in Hy. destruct Hy as [z [<- _]]. apply exp_pos.
    - intros t Ht. apply in_seq in Ht. rewrite H by lia. rewrite exp_plus. ring.
  Qed.
  Lemma first_best_shift (b b' : nat -> R) x n s s' : (forall t, t < n -> b' t = (b t + x)%R) -> first_best b n s -> first_best b' n s' -> s' = s.
  Proof.
    intros H [S1 [S2 S3]] [T1 [T2 T3]]. destruct (Nat.lt_trichotomy s' s) as [L|[L|L]]; [|exact L|]; exfalso.
    - specialize (S3 s' L). specialize (T2 s S1). rewrite !H in T2 by assumption. lra.
    - specialize (T3 s L). specialize (S2 s' T1). rewrite !H in T3 by assumption. lra.
  Qed.
  Lemma C40_decode_lemma (msgs : list R) : length msgs = length (ba_ftov_msgs a) ->
    (forall gr n, In gr vgs -> In n (vg_num_states gr) -> 0 < n) -> (forall gr, In gr vgs -> one_state gr = false) ->
    let b0 := {| ba_log_potentials := ba_log_potentials a; ba_ftov_msgs := msgs; ba_evidence := ba_evidence a |} in
    let b1 := {| ba_log_potentials := ba_log_potentials a; ba_ftov_msgs := msgs; ba_evidence := ev' |} in
    exists r r' q q' m m', get_beliefs c b0 = Ok r /\ get_beliefs c b1 = Ok r' /\
      decode_map_states r = Ok q /\ decode_map_states r' = Ok q' /\ get_marginals r = Ok m /\ get_marginals r' = Ok m' /\
    forall gr, In gr vgs -> exists d d' p p', dget vg_eqb gr q = Some d /\ dget vg_eqb gr q' = Some d' /\
      dget vg_eqb gr m = Some p /\ dget vg_eqb gr m' = Some p' /\
      forall i, i < length (vg_variables gr) -> cell gr d' i = cell gr d i /\ row gr p' i = row gr p i.
  Proof.
    intros Hm Hpos Hone b0 b1. destruct Ha as [A1 [A2 A3]].
    assert (Hb0 : arrays_of c b0) by (split; [exact A1|]; split; [cbn; congruence|exact A3]).
    assert (Hb1 : arrays_of c b1) by (split; [exact A1|]; split; cbn; congruence).
    destruct (C34_lemma vgs g T c Hok Hr Hwf Hbp b0 Hb0 Hpos Hone) as [r [q [Er [Eq [_ Dq]]]]].
    destruct (C34_lemma vgs g T c Hok Hr Hwf Hbp b1 Hb1 Hpos Hone) as [r' [q' [Er' [Eq' [_ Dq']]]]].
    destruct (C35_lemma vgs g T c Hok Hr Hwf Hbp b0 Hb0 Hpos Hone) as [r2 [m [Er2 [Em [_ Dm]]]]]. rewrite Er in Er2. injection Er2 as <-.
    destruct (C35_lemma vgs g T c Hok Hr Hwf Hbp b1 Hb1 Hpos Hone) as [r2 [m' [Er2 [Em' [_ Dm']]]]]. rewrite Er' in Er2. injection Er2 as <-.
    exists r, r', q, q', m, m'. do 6 (split; [assumption|]). intros gr Hg.
    destruct (Dq gr Hg) as [d [Ed [_ Cd]]]. destruct (Dq' gr Hg) as [d' [Ed' [_ Cd']]].
    destruct (Dm gr Hg) as [p [Ep [_ Rp]]]. destruct (Dm' gr Hg) as [p' [Ep' [_ Rp']]].
    exists d, d', p, p'. do 4 (split; [assumption|]). intros i Hi.
    destruct (nth_error (vg_variables gr) i) as [x|] eqn:Ex; [|apply nth_error_None in Ex; lia].
    assert (Hx : In x (all_vars vgs)).
    { unfold all_vars. apply in_concat. exists (vg_variables gr). split; [now apply in_map|]. eapply nth_error_In. exact Ex. }
    assert (HB : forall t, t < snd x -> text_belief fs (evs ev') (read_msgs fs msgs) x t = (text_belief fs (evs (ba_evidence a)) (read_msgs fs msgs) x t + k x)%R).
    { intros t Ht. apply text_belief_shift; [now apply Hshift|intros f u s _ _ _; reflexivity|exact Ht]. }
    split.
    - destruct (Cd i x Ex) as [s [-> Fs]]. destruct (Cd' i x Ex) as [s' [-> Fs']]. f_equal. eapply first_best_shift; [exact HB|exact Fs|exact Fs'].
    - rewrite (Rp i x Ex), (Rp' i x Ex). f_equal. apply map_ext_in. intros s Hs. apply in_seq in Hs. eapply gibbs_shift; [exact HB|lia].
  Qed.
End Graph.
