(** * Proofs about runs at different temperatures (C53). *)
From Verif Require Import NumPy Lists VGroup FGraph BPState BP SpecVGroup SpecFGraph SpecFactor SpecWiring SpecState SpecBP SpecText SpecBeliefs SpecStable SpecTemp.
From Verif Require Import LemFGraph LemState LemNum LemNorm LemVtoF LemEnum LemLogBP LemText LemRun LemPass LemBeliefs LemShift LemStable.
From Coq Require Import Reals Lra Lia.
Local Open Scope nat_scope.

(** ** Sums of exponentials *)
Lemma exp_tangent x y : (exp x * (1 + (y - x)) <= exp y)%R.
Proof.
  replace (exp y) with (exp x * exp (y - x))%R by (rewrite <- exp_plus; f_equal; lra).
  apply Rmult_le_compat_l; [left; apply exp_pos|]. destruct (Req_dec (y - x) 0) as [E|E]; [rewrite E, exp_0; lra|]. left. now apply exp_ineq1.
Qed.
Lemma exp_bernoulli p x : (1 <= p)%R -> (1 + p * (exp x - 1) <= exp (p * x))%R.
Proof.
  intros Hp. pose proof (exp_tangent x (p * x)) as H1. pose proof (exp_tangent x 0) as H2. rewrite exp_0 in H2.
  assert (H3 : ((p - 1) * (exp x * (1 + (0 - x))) <= (p - 1) * 1)%R) by (apply Rmult_le_compat_l; lra). nra.
Qed.
Lemma exp_le x y : (x <= y)%R -> (exp x <= exp y)%R.
Proof. intros [H|H]; [left; now apply exp_increasing|right; now rewrite H]. Qed.
Lemma ln_le_mono x y : (0 < x)%R -> (x <= y)%R -> (ln x <= ln y)%R.
Proof. intros Hx [H|H]; [left; now apply ln_increasing|right; now rewrite H]. Qed.
Lemma ln_INR_le n N : 0 < n -> n <= N -> (ln (INR n) <= ln (INR N))%R.
Proof. intros H1 H2. apply ln_le_mono; [now apply lt_0_INR|now apply le_INR]. Qed.
Lemma ln_INR_nonneg n : (0 <= ln (INR n))%R.
Proof.
  destruct n as [|n]; [cbn; unfold ln; destruct (Rlt_dec 0 0); [exfalso; lra|lra]|]. rewrite <- ln_1. apply ln_le_mono; [lra|].
  change 1%R with (INR 1). apply le_INR. lia.
Qed.

(** The value pooled from [f] at temperature [T]. *)
Definition pool {X} (T : R) (f : X -> R) (l : list X) : R :=
  if Req_EM_T T 0 then rmaxs (map f l) else (T * ln (rsum (map (fun x => exp (f x / T)) l)))%R.
Lemma sum_exp_pos {X} T (f : X -> R) l : l <> [] -> (0 < rsum (map (fun x => exp (f x / T)) l))%R.
Proof.
  intros Hn. apply rsum_pos; [destruct l; [contradiction|discriminate]|]. intros y Hy. apply in_map_iff in Hy. destruct Hy as [z [<- _]]. apply exp_pos.
Qed.
Lemma soft_temp {X} T T' (f : X -> R) l : (0 < T <= T')%R -> l <> [] ->
  let S t := rsum (map (fun x => exp (f x / t)) l) in
  (0 <= T' * ln (S T') - T * ln (S T) <= (T' - T) * ln (INR (length l)))%R.
Proof.
  intros HT Hn S. pose proof (sum_exp_pos T f l Hn) as P0. pose proof (sum_exp_pos T' f l Hn) as P1. fold (S T) in P0. fold (S T') in P1.
  set (p := (T' / T)%R). assert (Hp : (1 <= p)%R). { unfold p. apply (Rmult_le_reg_r T); [lra|]. unfold Rdiv. rewrite Rmult_assoc, Rinv_l by lra. lra. }
  assert (ET : T' = (p * T)%R) by (unfold p; field; lra).
  assert (Hlen : (0 < INR (length l))%R) by (apply lt_0_INR; destruct l; [contradiction|cbn; lia]).
  assert (Sc : forall k, S T = (exp (p * k) * rsum (map (fun x => exp (p * (f x / T' - k))) l))%R).
  { intros k. rewrite <- rsum_scal. apply rsum_ext. intros x _. rewrite <- exp_plus. f_equal. rewrite ET. field. split; [lra|]. unfold p. apply Rgt_not_eq. unfold Rdiv. apply Rmult_lt_0_compat; [lra|apply Rinv_0_lt_compat; lra]. }
  assert (Sd : forall k, rsum (map (fun x => exp (f x / T' - k)) l) = (S T' * exp (- k))%R).
  { intros k. rewrite Rmult_comm. unfold S. rewrite <- rsum_scal. apply rsum_ext. intros x _. rewrite <- exp_plus. f_equal. lra. }
  assert (Up : (ln (S T) <= p * ln (S T'))%R).
  { rewrite <- (ln_exp (p * ln (S T'))). apply ln_le_mono; [exact P0|]. rewrite (Sc (ln (S T'))).
    rewrite <- (Rmult_1_r (exp (p * ln (S T')))) at 2. apply Rmult_le_compat_l; [left; apply exp_pos|].
    apply (Rle_trans _ (rsum (map (fun x => exp (f x / T' - ln (S T'))) l))).
    - apply rsum_le. intros x Hx. apply exp_le.
      assert (Hy : (f x / T' - ln (S T') <= 0)%R).
      { rewrite <- (ln_exp (f x / T')). assert (H : (exp (f x / T') <= S T')%R); [|pose proof (ln_le_mono _ _ (exp_pos (f x / T')) H); lra].
        unfold S. clear - Hx. induction l as [|y l IH]; [destruct Hx|]. cbn [map]. rewrite rsum_cons.
        assert (Hr : (0 <= rsum (map (fun x => exp (f x / T')) l))%R) by (apply rsum_nonneg; intros z Hz; apply in_map_iff in Hz; destruct Hz as [w [<- _]]; left; apply exp_pos).
        destruct Hx as [->|Hx]; [lra|]. specialize (IH Hx). pose proof (exp_pos (f y / T')). lra. }
      nra.
    - rewrite Sd. right. rewrite <- (exp_ln (S T')) at 1 by exact P1. rewrite <- exp_plus. replace (ln (S T') + - ln (S T'))%R with 0%R by lra. apply exp_0. }
  assert (Lo : (p * ln (S T') <= ln (S T) + (p - 1) * ln (INR (length l)))%R).
  { set (k := (ln (S T') - ln (INR (length l)))%R).
    assert (Hk : (rsum (map (fun x => exp (f x / T' - k)) l) = INR (length l))%R).
    { rewrite Sd. unfold k. rewrite <- (exp_ln (S T')) at 1 by exact P1. rewrite <- exp_plus. replace (ln (S T') + - (ln (S T') - ln (INR (length l))))%R with (ln (INR (length l))) by lra. now apply exp_ln. }
    assert (Hs : (INR (length l) <= rsum (map (fun x => exp (p * (f x / T' - k))) l))%R).
    { apply (Rle_trans _ (rsum (map (fun x => (1 - p) + p * exp (f x / T' - k)) l)))%R.
      - rewrite rsum_plus, rsum_const, rsum_scal, Hk. lra.
      - apply rsum_le. intros x _. pose proof (exp_bernoulli p (f x / T' - k) Hp). lra. }
    assert (H : (exp (p * k) * INR (length l) <= S T)%R) by (rewrite (Sc k); apply Rmult_le_compat_l; [left; apply exp_pos|exact Hs]).
    apply ln_le_mono in H; [|apply Rmult_lt_0_compat; [apply exp_pos|exact Hlen]].
    rewrite ln_mult, ln_exp in H by (try apply exp_pos; exact Hlen). unfold k in H. lra. }
  assert (Q1 : (T * ln (S T) <= T * (p * ln (S T')))%R) by (apply Rmult_le_compat_l; lra).
  assert (Q2 : (T * (p * ln (S T')) <= T * (ln (S T) + (p - 1) * ln (INR (length l))))%R) by (apply Rmult_le_compat_l; lra).
  assert (E1 : (T * (p * ln (S T')) = T' * ln (S T'))%R) by (rewrite ET at 2; ring).
  assert (E2 : (T * ((p - 1) * ln (INR (length l))) = (T' - T) * ln (INR (length l)))%R) by (rewrite ET; ring).
  rewrite Rmult_plus_distr_l in Q2. lra.
Qed.
Lemma soft_zero {X} T (f : X -> R) l : (0 < T)%R -> l <> [] ->
  (0 <= T * ln (rsum (map (fun x => exp (f x / T)) l)) - rmaxs (map f l) <= T * ln (INR (length l)))%R.
Proof.
  intros HT Hn. assert (Nf : map f l <> []) by (destruct l; [contradiction|discriminate]).
  pose proof (sum_exp_pos T f l Hn) as P0. set (M := rmaxs (map f l)).
  assert (Hlen : (0 < INR (length l))%R) by (apply lt_0_INR; destruct l; [contradiction|cbn; lia]).
  assert (HM : forall x, In x l -> (f x <= M)%R) by (intros x Hx; apply rmaxs_ub; now apply in_map).
  assert (U : (rsum (map (fun x => exp (f x / T)) l) <= INR (length l) * exp (M / T))%R).
  { rewrite <- rsum_const. apply rsum_le. intros x Hx. apply exp_le. apply Rmult_le_compat_r; [left; apply Rinv_0_lt_compat; lra|now apply HM]. }
  assert (L : (exp (M / T) <= rsum (map (fun x => exp (f x / T)) l))%R).
  { pose proof (rmaxs_In _ Nf) as I. fold M in I. apply in_map_iff in I. destruct I as [x [E Hx]]. rewrite <- E. clear - Hx.
    induction l as [|y l IH]; [destruct Hx|]. cbn [map]. rewrite rsum_cons.
    assert (Hr : (0 <= rsum (map (fun x => exp (f x / T)) l))%R) by (apply rsum_nonneg; intros z Hz; apply in_map_iff in Hz; destruct Hz as [w [<- _]]; left; apply exp_pos).
    destruct Hx as [->|Hx]; [lra|]. specialize (IH Hx). pose proof (exp_pos (f y / T)). lra. }
  apply ln_le_mono in U; [|exact P0]. apply ln_le_mono in L; [|apply exp_pos]. rewrite ln_exp in L.
  rewrite ln_mult, ln_exp in U by (try apply exp_pos; exact Hlen).
  assert (E : (T * (M / T) = M)%R) by (field; lra).
  assert (Q1 : (T * (M / T) <= T * ln (rsum (map (fun x => exp (f x / T)) l)))%R) by (apply Rmult_le_compat_l; lra).
  assert (Q2 : (T * ln (rsum (map (fun x => exp (f x / T)) l)) <= T * (ln (INR (length l)) + M / T))%R) by (apply Rmult_le_compat_l; lra).
  rewrite Rmult_plus_distr_l in Q2. lra.
Qed.
Lemma pool_temp {X} T T' (f : X -> R) l : (0 <= T <= T')%R -> l <> [] ->
  (0 <= pool T' f l - pool T f l <= (T' - T) * ln (INR (length l)))%R.
Proof.
  intros HT Hn. unfold pool. destruct (Req_EM_T T' 0) as [E'|E'], (Req_EM_T T 0) as [E|E].
  - rewrite E, E'. lra.
  - exfalso. lra.
  - rewrite E, Rminus_0_r. apply soft_zero; [lra|exact Hn].
  - apply soft_temp; [lra|exact Hn].
Qed.
Lemma fac_to_var_pool {A} (fs : list (sfactor A)) pots T v f u s :
  fac_to_var fs pots T v f u s = pool T (fun c => score_but fs pots v f c u) (choices fs f u s).
Proof. unfold fac_to_var, pool. now destruct (Req_EM_T T 0). Qed.

(** ** One step *)
Section Step.
  Context {A : Type} (fs : list (sfactor A)) (D K N : nat).
  Hypothesis Hcfg : configs_ok fs.
  Hypothesis Hcov : covered fs.
  Hypothesis Hdeg : degrees fs D K.
  Hypothesis Hmost : choices_at_most fs N.

  Lemma fac_to_var_temp pots T T' v f u s : (0 <= T <= T')%R -> f < length fs -> u < arity fs f -> s < snd (var_at fs f u) ->
    (fac_to_var fs pots T v f u s <= fac_to_var fs pots T' v f u s <= fac_to_var fs pots T v f u s + (T' - T) * ln (INR N))%R.
  Proof.
    intros HT Hf Hu Hs. rewrite !fac_to_var_pool. specialize (Hcov f u s Hf Hu Hs). specialize (Hmost f u s Hf Hu Hs).
    destruct (pool_temp T T' (fun c => score_but fs pots v f c u) (choices fs f u s) HT Hcov) as [P1 P2].
    assert (L : (ln (INR (length (choices fs f u s))) <= ln (INR N))%R) by (apply ln_INR_le; [destruct (choices fs f u s); [contradiction|cbn; lia]|exact Hmost]).
    assert (Q : ((T' - T) * ln (INR (length (choices fs f u s))) <= (T' - T) * ln (INR N))%R) by (apply Rmult_le_compat_l; lra).
    lra.
  Qed.
  Lemma fac_to_var_temp_spread pots T T' v : (0 <= T)%R -> (0 <= T')%R ->
    msgs_spread fs (fac_to_var fs pots T v) (fac_to_var fs pots T' v) (Rabs (T - T') * ln (INR N)).
  Proof.
    intros HT HT' f u Hf Hu. destruct (Rle_lt_dec T T') as [H|H].
    - rewrite Rabs_left1 by lra. exists (- (- (T - T') * ln (INR N)))%R. intros s Hs. pose proof (fac_to_var_temp pots T T' v f u s (conj HT H) Hf Hu Hs). lra.
    - rewrite Rabs_right by lra. exists 0%R. intros s Hs. assert (H' : (T' <= T)%R) by lra. pose proof (fac_to_var_temp pots T' T v f u s (conj HT' H') Hf Hu Hs). lra.
  Qed.
  Lemma fac_to_var_both T T' pots pots' v v' p x : (0 <= T)%R -> (0 <= T')%R -> (0 <= x)%R -> pots_spread fs pots pots' p -> msgs_spread fs v v' x ->
    msgs_spread fs (fac_to_var fs pots T v) (fac_to_var fs pots' T' v') (p + Rabs (T - T') * ln (INR N) + INR (K - 1) * x)%R.
  Proof.
    intros HT HT' Hx Hp Hv f u Hf Hu.
    replace (p + Rabs (T - T') * ln (INR N) + INR (K - 1) * x)%R with (Rabs (T - T') * ln (INR N) + (p + INR (K - 1) * x))%R by lra.
    apply (spread_trans _ _ (fac_to_var fs pots T' v f u)); [now apply fac_to_var_temp_spread|]. now apply (fac_to_var_spread fs D K).
  Qed.
  Lemma temp_term T T' p : (0 <= p)%R -> (0 <= p + Rabs (T - T') * ln (INR N))%R.
  Proof. intros Hp. apply Rplus_le_le_0_compat; [exact Hp|]. apply Rmult_le_pos; [apply Rabs_pos|apply ln_INR_nonneg]. Qed.
End Step.

(** ** Textbook runs *)
Lemma text_temp {A} (fs : list (sfactor A)) D K N T T' d pots pots' ev ev' m0 m0' m e p n :
  configs_ok fs -> covered fs -> degrees fs D K -> choices_at_most fs N -> (forall f u, f < length fs -> u < arity fs f -> 0 < snd (var_at fs f u)) ->
  (0 <= T)%R -> (0 <= T')%R -> (0 <= d <= 1)%R -> (0 <= m)%R -> (0 <= e)%R -> (0 <= p)%R ->
  msgs_spread fs m0 m0' m -> ev_spread fs ev ev' e -> pots_spread fs pots pots' p ->
  msgs_spread fs (text_bp fs pots T d ev m0 n) (text_bp fs pots' T' d ev' m0' n) (temp_drift D K N d m e p T T' n) /\
  msgs_near fs (text_bp fs pots T d ev m0 n) (text_bp fs pots' T' d ev' m0' n) (temp_drift D K N d m e p T T' n).
Proof.
  intros Hcfg Hcov Hdeg Hmost Hpos HT HT' Hd Hm He Hp Sm Se Sp. unfold temp_drift. pose proof (temp_term N T T' p Hp) as Hp'. induction n as [|n IH].
  - now apply normal_spread.
  - destruct IH as [IH1 _].
    change (text_bp fs pots T d ev m0 (S n)) with (text_step fs pots T d ev (text_bp fs pots T d ev m0 n)).
    change (text_bp fs pots' T' d ev' m0' (S n)) with (text_step fs pots' T' d ev' (text_bp fs pots' T' d ev' m0' n)).
    unfold text_step. apply normal_spread; [exact Hpos|]. cbn [drift]. cbv zeta.
    pose proof (drift_nonneg D K d m e _ n Hd Hm He Hp') as Hx. pose proof (pos_INR (D - 1)) as HD.
    apply damp_spread; [exact Hd|exact IH1|]. apply (fac_to_var_both fs D K N); auto.
    + apply Rplus_le_le_0_compat; [exact He|now apply Rmult_le_pos].
    + now apply (var_to_fac_spread fs D K).
Qed.

(** ** Runs on a graph *)
Section Graph.
  Context (vgs : list vgroup) (g : fgraph R) (T T' : R) (c c' : bp_ctx R).
  Hypothesis Hok : groups_ok vgs.
  Hypothesis Hr : reachable vgs g.
  Hypothesis Hwf : wf_groups (gr_groups g).
  Hypothesis Hbp : bp_of g T c.
  Hypothesis Hbp' : bp_of g T' c'.
  Context (a a' : bp_arrays R).
  Hypothesis Ha : arrays_of c a.
  Hypothesis Ha' : arrays_of c' a'.
  Let fs := graph_factors 0%R (gr_groups g).
  Let pots b := graph_pots (gr_groups g) (ba_log_potentials b).
  Let ne := length (enum_factors (gr_groups g)).
  Let lens := map snd (sf_edges fs).
  Let evs b := read_ev (gr_vars_to_starts g) (ba_evidence b).
  Let msgs b := read_msgs fs (ba_ftov_msgs b).
  Context (D K N : nat) (d m e p : R).
  Hypothesis Hdeg : degrees fs D K.
  Hypothesis Hmost : choices_at_most fs N.
  Hypothesis HT : (0 <= T)%R.
  Hypothesis HT' : (0 <= T')%R.
  Hypothesis Hd : (0 <= d <= 1)%R.
  Hypothesis Hm : (0 <= m)%R.
  Hypothesis He : (0 <= e)%R.
  Hypothesis Hp : (0 <= p)%R.
  Hypothesis Sm : msgs_spread fs (msgs a) (msgs a') m.
  Hypothesis Se : forall x, In x (all_vars vgs) -> spread (snd x) (evs a x) (evs a' x) e.
  Hypothesis Sp : pots_spread fs (pots a) (pots a') p.
  Context (B P B' P' : R) (D1 K1 : nat).
  Hypothesis M : moderate fs (pots a) ne (evs a) B P D1 K1.
  Hypothesis M' : moderate fs (pots a') ne (evs a') B' P' D1 K1.
  Hypothesis Hsup : supported lens.
  Hypothesis Hfl : above_floor lens (ba_ftov_msgs a).
  Hypothesis Hfl' : above_floor lens (ba_ftov_msgs a').

  Lemma temp_covered : covered fs.
  Proof. exact (in_range_covered g T Hwf a _ (in_range_text g T Hwf a B P D1 K1 M d 0)). Qed.
  Lemma run_text n : msg_eq fs (msgs (run_bp c a n d)) (text_bp fs (pots a) T d (evs a) (msgs a) n) /\
    msg_eq fs (msgs (run_bp c' a' n d)) (text_bp fs (pots a') T' d (evs a') (msgs a') n).
  Proof.
    split; intros f u s Hf Hu Hs.
    - apply (C39_lemma vgs g T c Hok Hr Hwf Hbp a Ha d n Hsup); auto; intros i Hi.
      + now apply (above_floor_run vgs g T c Hok Hr Hwf Hbp a Ha B P D1 K1 M HT Hsup Hfl d Hd n).
      + apply (in_range_text g T Hwf a B P D1 K1 M).
    - apply (C39_lemma vgs g T' c' Hok Hr Hwf Hbp' a' Ha' d n Hsup); auto; intros i Hi.
      + now apply (above_floor_run vgs g T' c' Hok Hr Hwf Hbp' a' Ha' B' P' D1 K1 M' HT' Hsup Hfl' d Hd n).
      + apply (in_range_text g T' Hwf a' B' P' D1 K1 M').
  Qed.
  Lemma run_temp n : msgs_spread fs (msgs (run_bp c a n d)) (msgs (run_bp c' a' n d)) (temp_drift D K N d m e p T T' n) /\
    msgs_near fs (msgs (run_bp c a n d)) (msgs (run_bp c' a' n d)) (temp_drift D K N d m e p T T' n).
  Proof.
    destruct (run_text n) as [E E'].
    destruct (text_temp fs D K N T T' d (pots a) (pots a') (evs a) (evs a') (msgs a) (msgs a') m e p n) as [S1 S2]; auto.
    - now apply graph_configs_ok.
    - exact temp_covered.
    - apply positive_states. exact Hsup.
    - intros x Hx. apply Se. now apply (edges_vars vgs g T c Hok Hr Hwf Hbp).
    - split.
      + intros f u Hf Hu. specialize (S1 f u Hf Hu). revert S1. apply spread_ext; intros s Hs; symmetry; auto.
      + intros f u s Hf Hu Hs. rewrite E, E' by assumption. now apply S2.
  Qed.
  Lemma C53_messages_lemma n : msgs_near fs (msgs (run_bp c a n d)) (msgs (run_bp c' a' n d)) (temp_drift D K N d m e p T T' n).
  Proof. apply run_temp. Qed.
  Lemma temp_belief n x : In x (all_vars vgs) ->
    spread (snd x) (text_belief fs (evs a) (msgs (run_bp c a n d)) x) (text_belief fs (evs a') (msgs (run_bp c' a' n d)) x)
      (e + INR D * temp_drift D K N d m e p T T' n)%R.
  Proof.
    intros Hx. unfold text_belief. apply (spread_plus _ (evs a x) (evs a' x)); [now apply Se|].
    apply (spread_sum _ (fun fu => msgs (run_bp c a n d) (fst fu) (snd fu)) (fun fu => msgs (run_bp c' a' n d) (fst fu) (snd fu))); [|apply (proj1 Hdeg)|].
    - apply drift_nonneg; auto. now apply temp_term.
    - intros [f u] Hi. apply In_slots_of in Hi. destruct Hi as [H1 [H2 H3]]. cbn [fst snd]. rewrite <- H3. now apply run_temp.
  Qed.
  Lemma C53_decode_lemma :
    (forall gr n, In gr vgs -> In n (vg_num_states gr) -> 0 < n) -> (forall gr, In gr vgs -> one_state gr = false) ->
    forall n, exists r q r' q', get_beliefs c (run_bp c a n d) = Ok r /\ decode_map_states r = Ok q /\
      get_beliefs c' (run_bp c' a' n d) = Ok r' /\ decode_map_states r' = Ok q' /\
    forall gr, In gr vgs -> exists b y y', dget vg_eqb gr r = Some b /\ dget vg_eqb gr q = Some y /\ dget vg_eqb gr q' = Some y' /\
      forall i x s bs, nth_error (vg_variables gr) i = Some x -> s < snd x -> nth_error (row gr b i) s = Some (Fin bs) ->
      (forall t bt, t < snd x -> t <> s -> nth_error (row gr b i) t = Some (Fin bt) -> (bt + (e + INR D * temp_drift D K N d m e p T T' n) < bs)%R) ->
      cell gr y i = [s] /\ cell gr y' i = [s].
  Proof.
    intros Hpos Hone n.
    pose proof (run_arrays vgs g T c Hok Hr Hwf Hbp d a n Ha) as Hra. pose proof (run_arrays vgs g T' c' Hok Hr Hwf Hbp' d a' n Ha') as Hra'.
    destruct (C34_lemma vgs g T c Hok Hr Hwf Hbp _ Hra Hpos Hone) as [r [q [Er [Eq [_ Dq]]]]].
    destruct (C34_lemma vgs g T' c' Hok Hr Hwf Hbp' _ Hra' Hpos Hone) as [r' [q' [Er' [Eq' [_ Dq']]]]].
    destruct (C33_lemma vgs g T c Hok Hr Hwf Hbp _ Hra Hpos) as [r2 [Er2 [_ Dr]]]. rewrite Er in Er2. injection Er2 as <-.
    exists r, q, r', q'. do 4 (split; [assumption|]). intros gr Hg.
    destruct (Dq gr Hg) as [y [Ey [_ Cy]]]. destruct (Dq' gr Hg) as [y' [Ey' [_ Cy']]]. destruct (Dr gr Hg) as [b [Eb [_ Rb]]].
    exists b, y, y'. do 3 (split; [assumption|]). intros i x s bs Hi Hs Es Hgap. rewrite (Rb i x Hi) in Es, Hgap.
    set (bel := text_belief fs (evs a) (msgs (run_bp c a n d)) x).
    assert (Hn : forall t, t < snd x -> nth_error (map (fun t => Fin (bel t)) (seq 0 (snd x)) ++ repeat NInf (state_axis gr i - snd x)) t = Some (Fin (bel t))).
    { intros t Ht. rewrite nth_error_app1 by (rewrite map_length, seq_length; exact Ht). apply (map_nth_error (fun t => Fin (bel t)) t (seq 0 (snd x))).
      rewrite (nth_error_nth' _ 0) by (rewrite seq_length; exact Ht). now rewrite seq_nth. }
    assert (Ebs : bel s = bs). { pose proof (eq_trans (eq_sym (Hn s Hs)) Es) as E. now injection E. }
    assert (Hx : In x (all_vars vgs)).
    { unfold all_vars. apply in_concat. exists (vg_variables gr). split; [now apply in_map|]. eapply nth_error_In. exact Hi. }
    assert (Gap : forall t, t < snd x -> t <> s -> (bel t + (e + INR D * temp_drift D K N d m e p T T' n) < bel s)%R).
    { intros t Ht Hne. rewrite Ebs. apply (Hgap t (bel t) Ht Hne). exact (Hn t Ht). }
    assert (Hb : (0 <= e + INR D * temp_drift D K N d m e p T T' n)%R).
    { apply Rplus_le_le_0_compat; [exact He|]. apply Rmult_le_pos; [apply pos_INR|]. apply drift_nonneg; auto. now apply temp_term. }
    destruct (Cy i x Hi) as [t [-> Ft]]. destruct (Cy' i x Hi) as [t' [-> Ft']]. split; f_equal.
    - refine (first_best_spread bel bel (snd x) _ s t _ Hs Gap Ft). eapply spread_mono; [exact Hb|apply spread_zero].
    - refine (first_best_spread bel _ (snd x) _ s t' _ Hs Gap Ft'). now apply temp_belief.
  Qed.
End Graph.

(** ** One update of the code *)
Lemma C53_update_lemma junk (g : fgraph R) st lp vt :
  wf_groups (gr_groups g) -> compile_fg_state junk g = Ok st ->
  length vt = st_total_factor_num_states st -> length lp = length (st_log_potentials st) ->
  let fs := graph_factors 0%R (gr_groups g) in
  forall T T' f u s, (0 <= T <= T')%R ->
  f < length (enum_factors (gr_groups g)) -> u < arity fs f -> s < snd (var_at fs f u) ->
  (exists c, In c (choices fs f u s) /\ (T = 0%R -> (neg_inf <= score fs (graph_pots (gr_groups g) lp) (read_msgs fs vt) f c)%R)) ->
  let low := read_msgs fs (pass_fac_to_var_messages st T lp vt) f u s in
  (low <= read_msgs fs (pass_fac_to_var_messages st T' lp vt) f u s
       <= low + (T' - T) * ln (INR (length (choices fs f u s))))%R.
Proof.
  intros Hwf Hst L1 L2 fs T T' f u s HT Hf Hu Hs [k [Hk Hsc]] low. unfold low.
  assert (Hne : choices fs f u s <> []) by (intros E; now rewrite E in Hk).
  assert (G : forall t, (T <= t)%R -> read_msgs fs (pass_fac_to_var_messages st t lp vt) f u s
    = pool t (fun c => score_but fs (graph_pots (gr_groups g) lp) (read_msgs fs vt) f c u) (choices fs f u s)).
  { intros t Ht. unfold pool. destruct (Req_EM_T t 0) as [->|E0].
    - assert (E : T = 0%R) by lra. refine (C24_textbook_lemma junk g st lp vt Hwf Hst L1 L2 f u s Hf Hu Hs _). exists k. auto.
    - exact (C25_lemma junk g st lp vt Hwf Hst L1 L2 t f u s E0 Hf Hu Hs Hne). }
  rewrite (G T (Rle_refl T)), (G T' (proj2 HT)).
  destruct (pool_temp T T' (fun c => score_but fs (graph_pots (gr_groups g) lp) (read_msgs fs vt) f c u) (choices fs f u s) HT Hne). lra.
Qed.

(** ** Limits *)
Lemma drift_scale D K d p n : (drift D K d 0 0 p n = p * drift D K d 0 0 1 n)%R.
Proof. induction n as [|n IH]; cbn [drift]; cbv zeta; [lra|]. rewrite IH. ring. Qed.

Lemma degrees_exist {A} (fs : list (sfactor A)) : exists D K, degrees fs D K.
Proof.
  exists (length (slots fs)), (list_max (map (fun f => arity fs f) (seq 0 (length fs)))). split.
  - intros x. unfold slots_of. generalize (slots fs). intros l. induction l as [|y l IH]; [cbn; lia|]. cbn [filter]. destruct (var_eqb _ _); cbn [length]; lia.
  - intros f Hf. pose proof (proj1 (list_max_le (map (fun f => arity fs f) (seq 0 (length fs))) _) (le_n _)) as H. rewrite Forall_forall in H. apply H.
    apply in_map_iff. exists f. split; [reflexivity|]. apply in_seq. lia.
Qed.
Lemma choices_exist {A} (fs : list (sfactor A)) : exists N, choices_at_most fs N.
Proof.
  exists (list_max (map (fun f => length (sf_configs (factor_at fs f))) (seq 0 (length fs)))). intros f u s Hf _ _.
  eapply Nat.le_trans; [apply choices_length|].
  pose proof (proj1 (list_max_le (map (fun f => length (sf_configs (factor_at fs f))) (seq 0 (length fs))) _) (le_n _)) as H. rewrite Forall_forall in H. apply H.
  apply in_map_iff. exists f. split; [reflexivity|]. apply in_seq. lia.
Qed.
Lemma temp_drift_small D K N d n T eps : (0 <= d <= 1)%R -> (0 < eps)%R ->
  exists tau, (0 < tau)%R /\ forall T', (Rabs (T - T') < tau)%R -> (temp_drift D K N d 0 0 0 T T' n < eps)%R.
Proof.
  intros Hd He. set (k := (ln (INR N) * drift D K d 0 0 1 n)%R).
  assert (Hk : (0 <= k)%R) by (apply Rmult_le_pos; [apply ln_INR_nonneg|apply drift_nonneg; lra]).
  exists (eps / (k + 1))%R. split; [unfold Rdiv; apply Rmult_lt_0_compat; [exact He|apply Rinv_0_lt_compat; lra]|].
  intros T' H. unfold temp_drift. rewrite drift_scale, Rplus_0_l, Rmult_assoc. fold k.
  apply (Rle_lt_trans _ (Rabs (T - T') * (k + 1))%R); [apply Rmult_le_compat_l; [apply Rabs_pos|lra]|].
  apply (Rmult_lt_compat_r (k + 1)) in H; [|lra]. unfold Rdiv in H. rewrite Rmult_assoc, Rinv_l in H by lra. lra.
Qed.
Section Limit.
  Context (vgs : list vgroup) (g : fgraph R) (T : R) (c : bp_ctx R).
  Hypothesis Hok : groups_ok vgs.
  Hypothesis Hr : reachable vgs g.
  Hypothesis Hwf : wf_groups (gr_groups g).
  Hypothesis Hbp : bp_of g T c.
  Context (a : bp_arrays R).
  Hypothesis Ha : arrays_of c a.
  Let fs := graph_factors 0%R (gr_groups g).
  Let pots := graph_pots (gr_groups g) (ba_log_potentials a).
  Let ne := length (enum_factors (gr_groups g)).
  Let lens := map snd (sf_edges fs).
  Let evs := read_ev (gr_vars_to_starts g) (ba_evidence a).
  Let msgs b := read_msgs fs (ba_ftov_msgs b).
  Context (d B P : R) (D1 K1 : nat).
  Hypothesis HT : (0 <= T)%R.
  Hypothesis Hd : (0 <= d <= 1)%R.
  Hypothesis M : moderate fs pots ne evs B P D1 K1.
  Hypothesis Hsup : supported lens.
  Hypothesis Hfl : above_floor lens (ba_ftov_msgs a).

  Lemma C53_limit_lemma n eps : (0 < eps)%R -> exists tau, (0 < tau)%R /\
    forall T' c', (0 <= T')%R -> (Rabs (T - T') < tau)%R -> bp_of g T' c' -> arrays_of c' a ->
    msgs_near fs (msgs (run_bp c a n d)) (msgs (run_bp c' a n d)) eps.
  Proof.
    intros He. destruct (degrees_exist fs) as [D [K Hdeg]]. destruct (choices_exist fs) as [N HN].
    destruct (temp_drift_small D K N d n T eps Hd He) as [tau [Ht Hs]]. exists tau. split; [exact Ht|]. intros T' c' HT' Hx Hbp' Ha' f u s Hf Hu Hss.
    specialize (Hs T' Hx). apply (Rle_trans _ (temp_drift D K N d 0 0 0 T T' n)); [|lra].
    refine (C53_messages_lemma vgs g T T' c c' Hok Hr Hwf Hbp Hbp' a a Ha Ha' D K N d 0 0 0 Hdeg HN HT HT' Hd (Rle_refl 0) (Rle_refl 0) (Rle_refl 0) _ _ _ B P B P D1 K1 M M Hsup Hfl Hfl n f u s Hf Hu Hss).
    - intros f' u' _ _. apply spread_zero.
    - intros x _. apply spread_zero.
    - intros f' _. apply spread_zero.
  Qed.
  Lemma C53_decode_limit_lemma :
    (forall gr n, In gr vgs -> In n (vg_num_states gr) -> 0 < n) -> (forall gr, In gr vgs -> one_state gr = false) ->
    forall n lead, (0 < lead)%R -> exists tau, (0 < tau)%R /\
    forall T' c', (0 <= T')%R -> (Rabs (T - T') < tau)%R -> bp_of g T' c' -> arrays_of c' a ->
    exists r q r' q', get_beliefs c (run_bp c a n d) = Ok r /\ decode_map_states r = Ok q /\
      get_beliefs c' (run_bp c' a n d) = Ok r' /\ decode_map_states r' = Ok q' /\
    forall gr, In gr vgs -> exists b y y', dget vg_eqb gr r = Some b /\ dget vg_eqb gr q = Some y /\ dget vg_eqb gr q' = Some y' /\
      forall i x s bs, nth_error (vg_variables gr) i = Some x -> s < snd x -> nth_error (row gr b i) s = Some (Fin bs) ->
      (forall t bt, t < snd x -> t <> s -> nth_error (row gr b i) t = Some (Fin bt) -> (bt + lead <= bs)%R) ->
      cell gr y i = [s] /\ cell gr y' i = [s].
  Proof.
    intros Hpos Hone n lead Hl. destruct (degrees_exist fs) as [D [K Hdeg]]. destruct (choices_exist fs) as [N HN].
    assert (HD : (0 < INR D + 1)%R) by (pose proof (pos_INR D); lra).
    destruct (temp_drift_small D K N d n T (lead / (INR D + 1)) Hd) as [tau [Ht Hs]]; [unfold Rdiv; apply Rmult_lt_0_compat; [exact Hl|now apply Rinv_0_lt_compat]|].
    exists tau. split; [exact Ht|]. intros T' c' HT' Hx Hbp' Ha'. specialize (Hs T' Hx).
    assert (HX : (0 <= temp_drift D K N d 0 0 0 T T' n)%R) by (apply drift_nonneg; try lra; apply temp_term; lra).
    assert (Hb : (0 + INR D * temp_drift D K N d 0 0 0 T T' n < lead)%R).
    { apply (Rmult_lt_compat_r (INR D + 1)) in Hs; [|exact HD]. unfold Rdiv in Hs. rewrite Rmult_assoc, Rinv_l in Hs by lra. rewrite Rmult_plus_distr_l in Hs. lra. }
    destruct (C53_decode_lemma vgs g T T' c c' Hok Hr Hwf Hbp Hbp' a a Ha Ha' D K N d 0 0 0 Hdeg HN HT HT' Hd (Rle_refl 0) (Rle_refl 0) (Rle_refl 0)
      ltac:(intros f' u' _ _; apply spread_zero) ltac:(intros x _; apply spread_zero) ltac:(intros f' _; apply spread_zero) B P B P D1 K1 M M Hsup Hfl Hfl Hpos Hone n)
      as [r [q [r' [q' [E1 [E2 [E3 [E4 H]]]]]]]].
    exists r, q, r', q'. do 4 (split; [assumption|]). intros gr Hg. destruct (H gr Hg) as [b [y [y' [F1 [F2 [F3 Q]]]]]].
    exists b, y, y'. do 3 (split; [assumption|]). intros i x s bs Hi Hs' Es Hgap. apply (Q i x s bs Hi Hs' Es).
    intros t bt Ht' Hne Hbt. specialize (Hgap t bt Ht' Hne Hbt). lra.
  Qed.
End Limit.
