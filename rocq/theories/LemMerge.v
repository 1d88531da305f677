(** * Proofs about factors that list the same assignment more than once (C60). *)
From Verif Require Import NumPy Lists VGroup FGraph BPState BP SpecVGroup SpecFGraph SpecFactor SpecAdd SpecWiring SpecState SpecBP SpecText SpecBeliefs SpecPerm SpecLocal SpecMerge.
From Verif Require Import LemFactor LemFGraph LemAdd LemWiring LemGraph LemState LemNum LemNorm LemVtoF LemLogBP LemText LemRun LemBeliefs LemShift LemPerm LemStable LemLocal.
From Coq Require Import Reals Lra Lia Permutation FinFun.
Local Open Scope nat_scope.

Lemma cfg_eqb_eq a b : cfg_eqb a b = true <-> a = b.
Proof. unfold cfg_eqb. destruct (list_eq_dec Z.eq_dec a b); split; congruence. Qed.
Lemma cfg_eqb_refl a : cfg_eqb a a = true.
Proof. now apply cfg_eqb_eq. Qed.
Lemma rsum_map_const0 {X} (l : list X) : rsum (map (fun _ => 0%R) l) = 0%R.
Proof. induction l as [|x l IH]; [reflexivity|]. cbn [map]. rewrite LemNum.rsum_cons, IH. ring. Qed.
Lemma rsum_one (h : list Z -> R) keys x : NoDup keys -> In x keys -> rsum (map (fun k => if cfg_eqb x k then h k else 0%R) keys) = h x.
Proof.
  induction keys as [|k keys IH]; intros Hn Hi; [destruct Hi|]. inversion Hn as [|? ? Hk Hn']; subst. cbn [map]. rewrite LemNum.rsum_cons. destruct (cfg_eqb x k) eqn:E.
  - apply cfg_eqb_eq in E. subst k. rewrite (LemNum.rsum_ext _ (fun _ => 0%R)); [rewrite rsum_map_const0; ring|]. intros y Hy. destruct (cfg_eqb x y) eqn:E2; [|reflexivity].
    apply cfg_eqb_eq in E2. subst y. contradiction.
  - rewrite IH; [ring|exact Hn'|]. destruct Hi as [->|Hi]; [rewrite cfg_eqb_refl in E; discriminate|exact Hi].
Qed.
(** A sum over the rows of a table, assignment by assignment. *)
Lemma rsum_keys (tab : list (list Z * R)) (g : R -> R) (h : list Z -> R) keys : NoDup keys -> (forall r, In r tab -> In (fst r) keys) ->
  rsum (map (fun r => g (snd r) * h (fst r))%R tab) = rsum (map (fun k => rsum (map g (map snd (filter (fun r => cfg_eqb (fst r) k) tab))) * h k)%R keys).
Proof.
  intros Hn. induction tab as [|r tab IH]; intros Hk.
  - cbn [map filter]. erewrite LemNum.rsum_ext; [rewrite rsum_map_const0; reflexivity|]. intros k _. cbn. ring.
  - cbn [map]. rewrite LemNum.rsum_cons, IH by (intros q Hq; apply Hk; now right).
    rewrite <- (rsum_one (fun k => g (snd r) * h k)%R keys (fst r) Hn (Hk r (or_introl eq_refl))), <- LemNum.rsum_plus. apply LemNum.rsum_ext. intros k _. cbn [filter].
    destruct (cfg_eqb (fst r) k); cbn [map]; rewrite ?LemNum.rsum_cons; ring.
Qed.
Lemma filter_filter {X} (p q : X -> bool) l : filter p (filter q l) = filter (fun x => q x && p x) l.
Proof. induction l as [|x l IH]; [reflexivity|]. cbn [filter]. destruct (q x); cbn [filter andb]; rewrite IH; reflexivity. Qed.

Section Tables.
  Context (T : R) (tab tab' : list (list Z * R)).
  Hypothesis Heq : equivalent T tab tab'.
  (** The rows for an assignment. *)
  Lemma rows_some cfg : In cfg (map fst tab) -> filter (fun r => cfg_eqb (fst r) cfg) tab <> [].
  Proof.
    intros H. apply in_map_iff in H. destruct H as [r [<- Hr]]. intros E. assert (I : In r (filter (fun q => cfg_eqb (fst q) (fst r)) tab)) by (apply filter_In; split; [exact Hr|apply cfg_eqb_refl]).
    rewrite E in I. destruct I.
  Qed.
End Tables.
Lemma equivalent_sym T tab tab' : equivalent T tab tab' -> equivalent T tab' tab.
Proof. intros [H1 H2]. split; [intros c; symmetry; apply H1|]. intros c Hc. symmetry. apply H2. now apply H1. Qed.
Lemma max_le T tab tab' (q : list Z -> bool) (h : list Z -> R) : T = 0%R -> equivalent T tab tab' -> (exists r, In r tab /\ q (fst r) = true) ->
  (rmaxs (map (fun r => snd r + h (fst r)) (filter (fun r => q (fst r)) tab)) <= rmaxs (map (fun r => snd r + h (fst r)) (filter (fun r => q (fst r)) tab')))%R.
Proof.
  intros HT [H1 H2] [r0 [Hr0 Hq0]]. apply rmaxs_lub.
  - intros E. assert (I : In r0 (filter (fun r => q (fst r)) tab)) by (now apply filter_In). apply map_eq_nil in E. rewrite E in I. destruct I.
  - intros x Hx. apply in_map_iff in Hx. destruct Hx as [r [<- Hr]]. apply filter_In in Hr. destruct Hr as [Hr Hq].
    assert (Hc : In (fst r) (map fst tab)) by (now apply in_map). specialize (H2 _ Hc). unfold weight in H2. destruct (Req_EM_T T 0) as [_|C]; [|contradiction].
    assert (L : (snd r <= rmaxs (map snd (filter (fun r0 => cfg_eqb (fst r0) (fst r)) tab)))%R) by (apply rmaxs_ub, in_map, filter_In; split; [exact Hr|apply cfg_eqb_refl]).
    apply H1 in Hc. pose proof (rows_some tab' (fst r) Hc) as Hne.
    assert (I : In (rmaxs (map snd (filter (fun r0 => cfg_eqb (fst r0) (fst r)) tab'))) (map snd (filter (fun r0 => cfg_eqb (fst r0) (fst r)) tab'))) by (apply rmaxs_In; intros E; apply map_eq_nil in E; contradiction).
    apply in_map_iff in I. destruct I as [r' [E' I']]. apply filter_In in I'. destruct I' as [I1 I2]. apply cfg_eqb_eq in I2.
    apply Rle_trans with (snd r' + h (fst r'))%R; [rewrite I2; lra|]. apply rmaxs_ub. apply (in_map (fun r => snd r + h (fst r))%R). apply filter_In. split; [exact I1|]. now rewrite I2.
Qed.
Lemma max_same T tab tab' (q : list Z -> bool) (h : list Z -> R) : T = 0%R -> equivalent T tab tab' ->
  rmaxs (map (fun r => snd r + h (fst r))%R (filter (fun r => q (fst r)) tab)) = rmaxs (map (fun r => snd r + h (fst r))%R (filter (fun r => q (fst r)) tab')).
Proof.
  intros HT He. destruct (existsb (fun r => q (fst r)) tab) eqn:E.
  - apply existsb_exists in E. assert (E' : exists r, In r tab' /\ q (fst r) = true).
    { destruct E as [r [Hr Hq]]. assert (Hc : In (fst r) (map fst tab')) by (apply (proj1 He); now apply in_map). apply in_map_iff in Hc. destruct Hc as [r' [E1 E2]]. exists r'. split; [exact E2|now rewrite E1]. }
    apply Rle_antisym; apply (max_le T); auto. now apply equivalent_sym.
  - assert (E0 : forall t, (forall r, In r t -> q (fst r) = false) -> filter (fun r : list Z * R => q (fst r)) t = []).
    { intros t Ht. induction t as [|r t IH]; [reflexivity|]. cbn [filter]. rewrite (Ht r (or_introl eq_refl)). apply IH. intros r' Hr'. apply Ht. now right. }
    rewrite !E0; [reflexivity| |].
    + intros r Hr. destruct (q (fst r)) eqn:Q; [|reflexivity]. assert (Hc : In (fst r) (map fst tab)) by (apply (proj1 He); now apply in_map). apply in_map_iff in Hc. destruct Hc as [r' [E1 E2]].
      assert (X : existsb (fun r => q (fst r)) tab = true) by (apply existsb_exists; exists r'; split; [exact E2|now rewrite E1]). congruence.
    + intros r Hr. destruct (q (fst r)) eqn:Q; [|reflexivity]. assert (X : existsb (fun r => q (fst r)) tab = true) by (apply existsb_exists; now exists r). congruence.
Qed.
Lemma soft_same T tab tab' (q : list Z -> bool) (h : list Z -> R) : T <> 0%R -> equivalent T tab tab' ->
  rsum (map (fun r => exp ((snd r + h (fst r)) / T)) (filter (fun r => q (fst r)) tab)) = rsum (map (fun r => exp ((snd r + h (fst r)) / T)) (filter (fun r => q (fst r)) tab')).
Proof.
  intros HT [H1 H2]. set (dec := list_eq_dec Z.eq_dec). set (keys := nodup dec (map fst tab)).
  set (hh := fun c => if q c then exp (h c / T) else 0%R).
  assert (E : forall t, (forall r, In r t -> In (fst r) keys) -> rsum (map (fun r => exp ((snd r + h (fst r)) / T)) (filter (fun r => q (fst r)) t))
    = rsum (map (fun k => rsum (map (fun x => exp (x / T)) (map snd (filter (fun r => cfg_eqb (fst r) k) t))) * hh k)%R keys)).
  { intros t Ht. rewrite <- (rsum_keys t (fun x => exp (x / T)) hh keys (NoDup_nodup _ _) Ht). clear Ht. induction t as [|r t IH]; [reflexivity|]. cbn [filter map]. unfold hh at 1.
    destruct (q (fst r)) eqn:Q; cbn [map]; rewrite ?LemNum.rsum_cons, IH, ?Q; [|ring]. f_equal. rewrite <- exp_plus. f_equal. field. exact HT. }
  rewrite !E.
  - apply LemNum.rsum_ext. intros k Hk. f_equal. apply nodup_In in Hk. specialize (H2 k Hk). unfold weight in H2. destruct (Req_EM_T T 0) as [C|_]; [contradiction|].
    apply Rmult_eq_reg_l in H2; [|exact HT].
    assert (Pos : forall t, In k (map fst t) -> (0 < rsum (map (fun x => exp (x / T)) (map snd (filter (fun r => cfg_eqb (fst r) k) t))))%R).
    { intros t Hi. apply LemNum.rsum_pos; [intros X; apply map_eq_nil, map_eq_nil in X; now apply (rows_some t k Hi)|]. intros x Hx. apply in_map_iff in Hx. destruct Hx as [y [<- _]]. apply exp_pos. }
    apply ln_inv; [apply Pos; exact Hk|apply Pos; now apply H1|exact H2].
  - intros r Hr. apply nodup_In. apply H1. now apply in_map.
  - intros r Hr. apply nodup_In. now apply in_map.
Qed.

(** ** Textbook messages *)
Section Alike.
  Context {A : Type} (T : R) (fs fs' : list (sfactor A)) (pots pots' : nat -> nat -> R) (p : nat -> nat).
  Hypothesis Hal : alike T fs fs' pots pots' p.
  Hypothesis Hcfg' : configs_ok fs'.
  Notation wid := (fun _ u : nat => u).
  Notation same := (same_msg fs p wid (fun _ s => s)).
  Lemma alike_vars f : f < length fs -> sf_vars (factor_at fs' (p f)) = sf_vars (factor_at fs f).
  Proof. intros Hf. now apply Hal. Qed.
  Lemma alike_embeds : embeds fs fs' p wid (fun x => x) (fun _ s => s).
  Proof.
    destruct Hal as [Hl [H1 _]]. split; [|intros x _; split; [reflexivity|apply perm_below_id]]. intros f Hf. unfold arity, var_at. rewrite (alike_vars f Hf).
    split; [rewrite Hl; now apply H1|]. split; [reflexivity|]. split; [apply perm_below_id|auto].
  Qed.
  Lemma alike_slots x : Permutation (map (place p wid) (slots_of fs x)) (slots_of fs' x).
  Proof.
    destruct Hal as [Hl [H1 [H2 _]]]. apply NoDup_Permutation; [|apply NoDup_filter, NoDup_slots|].
    - apply NoDup_map_on; [apply NoDup_filter, NoDup_slots|]. intros [f u] [h v] Hf Hh E. apply In_slots_of in Hf, Hh. unfold place in E. cbn [fst snd] in E.
      injection E as E ->. apply H2 in E; [now subst|lia|lia].
    - intros [f' u]. rewrite in_map_iff. split.
      + intros [[f v] [E Hi]]. unfold place in E. cbn [fst snd] in E. injection E as <- ->. apply In_slots_of in Hi. destruct Hi as [I1 [I2 I3]]. apply In_slots_of. unfold arity, var_at in *. rewrite (alike_vars f I1).
        split; [rewrite Hl; now apply H1|]. now split.
      + intros Hi. apply In_slots_of in Hi. destruct Hi as [I1 [I2 I3]]. rewrite Hl in I1.
        assert (Hs : bSurjective (length fs) p) by (apply bInjective_bSurjective; [exact H1|exact H2]). destruct (Hs f' I1) as [f [Hf <-]].
        exists (f, u). split; [reflexivity|]. apply In_slots_of. unfold arity, var_at in *. rewrite (alike_vars f Hf) in *. auto.
  Qed.
  Lemma alike_fac_to_var v v' f u : f < length fs -> u < arity fs f -> (forall k, k < arity fs f -> k <> u -> same v v' f k) ->
    same (fac_to_var fs pots T v) (fac_to_var fs' pots' T v') f u.
  Proof.
    intros Hf Hu Hv s Hs. pose proof (proj2 (proj2 (proj2 (proj2 Hal)) f Hf)) as He.
    set (h := fun cfg => rsum (map (fun w => v f w (Z.to_nat (nth w cfg 0%Z))) (filter (fun w => negb (w =? u)) (seq 0 (arity fs f))))).
    assert (Ha : arity fs' (p f) = arity fs f) by (unfold arity; now rewrite (alike_vars f Hf)).
    assert (S1 : map (fun c => score_but fs pots v f c u) (choices fs f u s) = map (fun r => snd r + h (fst r))%R (filter (fun r => Z.to_nat (nth u (fst r) 0%Z) =? s) (table fs pots f))) by (apply scores_table).
    assert (S2 : map (fun c => score_but fs' pots' v' (p f) c u) (choices fs' (p f) u s) = map (fun r => snd r + h (fst r))%R (filter (fun r => Z.to_nat (nth u (fst r) 0%Z) =? s) (table fs' pots' (p f)))).
    { rewrite scores_table. apply map_ext_in. intros r Hr. apply filter_In in Hr. destruct Hr as [Hr _]. unfold row_score. rewrite Ha. f_equal. unfold h. apply LemNum.rsum_ext. intros w Hw.
      apply filter_In in Hw. destruct Hw as [Hw Hne]. apply in_seq in Hw. apply negb_true_iff, Nat.eqb_neq in Hne. apply (Hv w); [lia|exact Hne|].
      unfold table in Hr. apply in_map_iff in Hr. destruct Hr as [c [<- Hc]]. apply in_seq in Hc. cbn [fst]. assert (Hpf : p f < length fs') by (destruct Hal as [-> [H1 _]]; now apply H1).
      pose proof (config_ok fs' Hcfg' (p f) c w Hpf ltac:(lia) ltac:(lia)) as X. unfold config_at_slot, var_at in X. rewrite (alike_vars f Hf) in X. exact X. }
    unfold fac_to_var. destruct (Req_EM_T T 0) as [HT|HT].
    - unfold fac_to_var_max. rewrite S1, S2. symmetry. now apply (max_same T _ _ (fun cfg => Z.to_nat (nth u cfg 0%Z) =? s)).
    - unfold fac_to_var_soft. rewrite <- (map_map (fun c => score_but fs' pots' v' (p f) c u) (fun x => exp (x / T))), <- (map_map (fun c => score_but fs pots v f c u) (fun x => exp (x / T))), S1, S2, !map_map.
      f_equal. f_equal. symmetry. now apply (soft_same T _ _ (fun cfg => Z.to_nat (nth u cfg 0%Z) =? s)).
  Qed.
  Context (ev ev' : variable -> nat -> R).
  Hypothesis Hev : forall x s, In x (sf_edges fs) -> s < snd x -> ev' x s = ev x s.
  Lemma alike_text d m m' n : (forall f u, f < length fs -> u < arity fs f -> same m m' f u) ->
    forall f u, f < length fs -> u < arity fs f -> same (text_bp fs pots T d ev m n) (text_bp fs' pots' T d ev' m' n) f u.
  Proof.
    intros Hm. induction n as [|n IH]; intros f u Hf Hu.
    - apply (same_normal fs fs' p _ (fun x => x) _ alike_embeds); auto.
    - change (same (text_step fs pots T d ev (text_bp fs pots T d ev m n)) (text_step fs' pots' T d ev' (text_bp fs' pots' T d ev' m' n)) f u).
      unfold text_step. apply (same_normal fs fs' p _ (fun x => x) _ alike_embeds); auto. apply same_damp; [now apply IH|]. apply alike_fac_to_var; [exact Hf|exact Hu|].
      intros k Hk _. apply (same_var_to_fac fs fs' p wid (fun x => x) (fun _ s => s) alike_embeds ev ev'); [exact Hf|exact Hk| |].
      + split; [apply alike_slots|]. intros s Hs. apply Hev; [now apply var_in_edges|exact Hs].
      + intros h j Hi _. apply In_slots_of in Hi. apply IH; lia.
  Qed.
End Alike.

(** ** Runs *)
Section Two.
  Context (vgs : list vgroup) (g g' : fgraph R) (T : R) (c c' : bp_ctx R).
  Hypothesis Hok : groups_ok vgs.
  Hypothesis Hr : reachable vgs g.
  Hypothesis Hwf : wf_groups (gr_groups g).
  Hypothesis Hbp : bp_of g T c.
  Hypothesis Hr' : reachable vgs g'.
  Hypothesis Hwf' : wf_groups (gr_groups g').
  Hypothesis Hbp' : bp_of g' T c'.
  Context (a a' : bp_arrays R).
  Hypothesis Ha : arrays_of c a.
  Hypothesis Ha' : arrays_of c' a'.
  Let fs := graph_factors 0%R (gr_groups g).
  Let fs' := graph_factors 0%R (gr_groups g').
  Let pots := graph_pots (gr_groups g) (ba_log_potentials a).
  Let pots' := graph_pots (gr_groups g') (ba_log_potentials a').
  Let ne := length (enum_factors (gr_groups g)).
  Let ne' := length (enum_factors (gr_groups g')).
  Let lens := map snd (sf_edges fs).
  Let lens' := map snd (sf_edges fs').
  Let ev := read_ev (gr_vars_to_starts g) (ba_evidence a).
  Let ev' := read_ev (gr_vars_to_starts g') (ba_evidence a').
  Let msgs b := read_msgs fs (ba_ftov_msgs b).
  Let msgs' b := read_msgs fs' (ba_ftov_msgs b).
  Context (d B P B' P' : R) (D K D' K' : nat).
  Hypothesis HT : (0 <= T)%R.
  Hypothesis Hd : (0 <= d <= 1)%R.
  Hypothesis M : moderate fs pots ne ev B P D K.
  Hypothesis M' : moderate fs' pots' ne' ev' B' P' D' K'.
  Hypothesis Hsup : supported lens.
  Hypothesis Hsup' : supported lens'.
  Hypothesis Hfl : above_floor lens (ba_ftov_msgs a).
  Hypothesis Hfl' : above_floor lens' (ba_ftov_msgs a').
  Context (p : nat -> nat).
  Hypothesis Hal : alike T fs fs' pots pots' p.
  Hypothesis Hev : forall x s, In x (all_vars vgs) -> s < snd x -> ev' x s = ev x s.
  Hypothesis Hmsg : forall f u s, f < length fs -> u < arity fs f -> s < snd (var_at fs f u) -> msgs' a' (p f) u s = msgs a f u s.

  Lemma C60_messages_lemma n f u s : f < length fs -> u < arity fs f -> s < snd (var_at fs f u) -> msgs' (run_bp c' a' n d) (p f) u s = msgs (run_bp c a n d) f u s.
  Proof.
    intros Hf Hu Hs. destruct (runs_text vgs vgs g g' T c c' Hok Hr Hwf Hbp Hok Hr' Hwf' Hbp' a a' Ha Ha' d B P B' P' D K D' K' HT Hd M M' Hsup Hsup' Hfl Hfl' n) as [E E'].
    refine (eq_trans (E' (p f) u s _ _ _) (eq_trans _ (eq_sym (E f u s Hf Hu Hs)))).
    1: destruct Hal as [L [L1 _]]; change (p f < length fs'); rewrite L; now apply L1.
    1: change (u < length (sf_vars (factor_at fs' (p f)))); rewrite (alike_vars T fs fs' pots pots' p Hal f Hf); exact Hu.
    1: change (s < snd (nth u (sf_vars (factor_at fs' (p f))) (0%Z, 0))); rewrite (alike_vars T fs fs' pots pots' p Hal f Hf); exact Hs.
    refine (alike_text T fs fs' pots pots' p Hal (graph_configs_ok _ Hwf') ev ev' _ d (msgs a) (msgs' a') n _ f u Hf Hu s Hs).
    - intros x i Hx Hi. apply Hev; [|exact Hi]. exact (edges_vars vgs g T c Hok Hr Hwf Hbp x Hx).
    - intros h v Hh Hv i Hi. now apply Hmsg.
  Qed.
  Lemma C60_beliefs_lemma :
    (forall gr k, In gr vgs -> In k (vg_num_states gr) -> 0 < k) -> (forall gr, In gr vgs -> one_state gr = false) ->
    forall n, exists b q b' q', get_beliefs c (run_bp c a n d) = Ok b /\ decode_map_states b = Ok q /\
      get_beliefs c' (run_bp c' a' n d) = Ok b' /\ decode_map_states b' = Ok q' /\
    forall gr, In gr vgs -> exists e y e' y',
      dget vg_eqb gr b = Some e /\ dget vg_eqb gr q = Some y /\ dget vg_eqb gr b' = Some e' /\ dget vg_eqb gr q' = Some y' /\
    forall i x, nth_error (vg_variables gr) i = Some x -> row gr e' i = row gr e i /\ cell gr y' i = cell gr y i.
  Proof.
    intros Hpos Hone n.
    pose proof (LemStable.run_arrays vgs g T c Hok Hr Hwf Hbp d a n Ha) as Hra. pose proof (LemStable.run_arrays vgs g' T c' Hok Hr' Hwf' Hbp' d a' n Ha') as Hra'.
    destruct (C34_lemma vgs g T c Hok Hr Hwf Hbp _ Hra Hpos Hone) as [b [q [Eb [Eq [_ Dq]]]]].
    destruct (C34_lemma vgs g' T c' Hok Hr' Hwf' Hbp' _ Hra' Hpos Hone) as [b' [q' [Eb' [Eq' [_ Dq']]]]].
    destruct (C33_lemma vgs g T c Hok Hr Hwf Hbp _ Hra Hpos) as [b2 [Eb2 [_ Db]]]. rewrite Eb in Eb2. injection Eb2 as <-.
    destruct (C33_lemma vgs g' T c' Hok Hr' Hwf' Hbp' _ Hra' Hpos) as [b2 [Eb2 [_ Db']]]. rewrite Eb' in Eb2. injection Eb2 as <-.
    exists b, q, b', q'. do 4 (split; [assumption|]). intros gr Hg.
    destruct (Dq gr Hg) as [y [Ey [_ Cy]]]. destruct (Dq' gr Hg) as [y' [Ey' [_ Cy']]]. destruct (Db gr Hg) as [e [Ee [_ Re]]]. destruct (Db' gr Hg) as [e' [Ee' [_ Re']]].
    exists e, y, e', y'. do 4 (split; [assumption|]). intros i x Hi.
    set (bel := text_belief fs ev (msgs (run_bp c a n d)) x). set (bel' := text_belief fs' ev' (msgs' (run_bp c' a' n d)) x).
    assert (HB : forall s, s < snd x -> bel' s = bel s).
    { intros s Hs. refine (same_belief fs fs' p (fun _ u => u) (fun x => x) (fun _ s => s) ev ev' _ _ x s _ _ Hs).
      - split; [apply (alike_slots T fs fs' pots pots' p Hal)|]. intros k Hk. apply Hev; [|exact Hk]. unfold all_vars. apply in_concat. exists (vg_variables gr). split; [now apply in_map|]. now apply nth_error_In in Hi.
      - intros f u Hfu. apply In_slots_of in Hfu. destruct Hfu as [Hf [Hu _]]. intros k Hk. now apply C60_messages_lemma. }
    split.
    - rewrite (Re i x Hi), (Re' i x Hi). f_equal. apply map_ext_in. intros s Hs. apply in_seq in Hs. f_equal. apply HB. lia.
    - destruct (Cy i x Hi) as [s [-> Fs]]. destruct (Cy' i x Hi) as [s' [-> Fs']]. f_equal. exact (first_best_unique bel bel' (snd x) s s' HB Fs Fs').
  Qed.
End Two.
