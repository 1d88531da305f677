(** * Bounds on scores from beliefs and messages (towards C71). *)
From Verif Require Import NumPy Lists VGroup FGraph BPState BP SpecVGroup SpecFGraph SpecFactor SpecWiring SpecState SpecBP SpecText SpecBeliefs SpecTree SpecSum SpecFix SpecBound.
From Verif Require Import LemVGroup LemFGraph LemState LemNum LemNorm LemVtoF LemText LemRun LemBeliefs LemShift LemPerm LemTree LemExact LemSum LemFix.
From Coq Require Import Reals Lra Lia Permutation.
Local Open Scope nat_scope.

Lemma rsum_below {Q} (h k : Q -> R) l : (forall q, In q l -> (h q <= k q)%R) -> (rsum (map h l) <= rsum (map k l))%R.
Proof.
  induction l as [|q l IH]; intros H; [apply Rle_refl|]. cbn [map]. rewrite !rsum_cons. pose proof (H q (or_introl eq_refl)).
  specialize (IH (fun p Hp => H p (or_intror Hp))). lra.
Qed.
Lemma rsum_below_strict {Q} (h k : Q -> R) l p : (forall q, In q l -> (h q <= k q)%R) -> In p l -> (h p < k p)%R -> (rsum (map h l) < rsum (map k l))%R.
Proof.
  induction l as [|q l IH]; intros H Hp Hlt; [destruct Hp|]. cbn [map]. rewrite !rsum_cons. pose proof (H q (or_introl eq_refl)).
  destruct Hp as [->|Hp].
  - pose proof (rsum_below h k l (fun p Hp => H p (or_intror Hp))). lra.
  - specialize (IH (fun p Hp => H p (or_intror Hp)) Hp Hlt). lra.
Qed.

Section Text.
  Context {A : Type} (fs : list (sfactor A)) (pots : nat -> nat -> R).
  Context (ev : variable -> nat -> R) (m : msg) (xs : list variable).
  Hypothesis Hnd : NoDup xs.
  Hypothesis Hxs : incl (sf_edges fs) xs.
  Let b := text_belief fs ev m.

  Lemma score_shares w st cf : consistent fs st cf -> joint_score fs pots ev xs st cf =
    (rsum (map (fun x => share_left fs w x * b x (st x)) xs) + rsum (map (fun f => residual fs pots b m w f (cf f)) (seq 0 (length fs))))%R.
  Proof.
    intros Hc. rewrite (score_beliefs fs pots ev m xs Hnd Hxs st cf Hc). fold b.
    rewrite (rsum_ext (fun x => share_left fs w x * b x (st x))%R (fun x => b x (st x) - rsum (map (fun fu => w (fst fu) (snd fu) * b x (st x)) (slots_of fs x)))%R).
    2:{ intros x _. unfold share_left. rewrite (rsum_ext (fun fu => w (fst fu) (snd fu) * b x (st x))%R (fun fu => b x (st x) * w (fst fu) (snd fu))%R) by (intros fu _; ring).
        rewrite rsum_scal. ring. }
    rewrite (rsum_minus (fun x => b x (st x))). unfold slots_of.
    rewrite (rsum_classes (fun fu => var_at fs (fst fu) (snd fu)) (fun x fu => w (fst fu) (snd fu) * b x (st x))%R xs (slots fs) Hnd).
    2:{ intros [f u] Hq. apply In_slots in Hq. cbn [fst snd] in *. apply Hxs. now apply var_in_edges. }
    unfold slots. rewrite rsum_flat_map.
    match goal with |- (?p + ?q = ?p - ?r + ?t)%R => enough (E : (q = t - r)%R) by (rewrite E; ring) end.
    rewrite <- rsum_minus. apply rsum_ext. intros f Hf. apply in_seq in Hf. rewrite map_map. cbn [fst snd].
    destruct (Hc f ltac:(lia)) as [_ Hs]. unfold residual. rewrite <- (cb_score fs pots ev m f (cf f)) by lia. fold b.
    rewrite (rsum_ext (fun u => (1 - w f u) * b (var_at fs f u) (config_at_slot fs f (cf f) u))%R
      (fun u => b (var_at fs f u) (st (var_at fs f u)) - w f u * b (var_at fs f u) (st (var_at fs f u)))%R)
      by (intros u Hu; apply in_seq in Hu; rewrite (Hs u) by lia; ring).
    rewrite rsum_minus. ring.
  Qed.
  Lemma score_bound w X F : residuals_below fs pots b m w F -> (forall x s, In x xs -> s < snd x -> (share_left fs w x * b x s <= X x)%R) ->
    forall st cf, joint fs xs st cf -> (joint_score fs pots ev xs st cf <= rsum (map X xs) + rsum (map F (seq 0 (length fs))))%R.
  Proof.
    intros HF HX st cf [Hs Hc]. rewrite (score_shares w st cf Hc). apply Rplus_le_compat; apply rsum_below.
    - intros x Hx. apply HX; [exact Hx|now apply Hs].
    - intros f Hf. apply in_seq in Hf. apply HF; [lia|]. apply Hc. lia.
  Qed.
  Context (st : variable -> nat).
  Hypothesis Hbest : forall x s, In x xs -> s < snd x -> (b x s <= b x (st x))%R.
  Lemma score_gap w F : residuals_below fs pots b m w F -> (forall x, In x xs -> (0 <= share_left fs w x)%R) ->
    forall cf, joint fs xs st cf -> forall st' cf', joint fs xs st' cf' ->
    (joint_score fs pots ev xs st' cf' - joint_score fs pots ev xs st cf <= rsum (map (fun f => F f - residual fs pots b m w f (cf f)) (seq 0 (length fs))))%R.
  Proof.
    intros HF HX cf [Hs Hc] st' cf' J'. rewrite (score_shares w st cf Hc).
    pose proof (score_bound w (fun x => share_left fs w x * b x (st x))%R F HF (fun x s Hx H => Rmult_le_compat_l _ _ _ (HX x Hx) (Hbest x s Hx H)) st' cf' J') as H.
    rewrite rsum_minus. lra.
  Qed.
  Lemma score_optimal w cf : (forall x, In x xs -> (0 <= share_left fs w x)%R) -> joint fs xs st cf ->
    residuals_below fs pots b m w (fun f => residual fs pots b m w f (cf f)) ->
    forall st' cf', joint fs xs st' cf' -> (joint_score fs pots ev xs st' cf' <= joint_score fs pots ev xs st cf)%R.
  Proof.
    intros HX J HF st' cf' J'. pose proof (score_gap w _ HF HX cf J st' cf' J') as H. rewrite (rsum_ext _ (fun _ => 0%R)) in H by (intros f _; lra).
    rewrite rsum_const in H. lra.
  Qed.
  Lemma score_unique w cf : (forall x, In x xs -> (0 < share_left fs w x)%R) -> joint fs xs st cf ->
    residuals_below fs pots b m w (fun f => residual fs pots b m w f (cf f)) ->
    (forall x s, In x xs -> s < snd x -> s <> st x -> (b x s < b x (st x))%R) ->
    forall st' cf', joint fs xs st' cf' -> (joint_score fs pots ev xs st cf <= joint_score fs pots ev xs st' cf')%R -> forall x, In x xs -> st' x = st x.
  Proof.
    intros HX [Hs Hc] HF Hlead st' cf' [Hs' Hc'] Hle x Hx. destruct (Nat.eq_dec (st' x) (st x)) as [E|Hne]; [exact E|exfalso].
    rewrite (score_shares w st cf Hc), (score_shares w st' cf' Hc') in Hle.
    assert (H1 : (rsum (map (fun x => share_left fs w x * b x (st' x)) xs) < rsum (map (fun x => share_left fs w x * b x (st x)) xs))%R).
    { apply (rsum_below_strict _ _ xs x); [|exact Hx|].
      - intros y Hy. apply Rmult_le_compat_l; [specialize (HX y Hy); lra|]. apply Hbest; [exact Hy|now apply Hs'].
      - apply Rmult_lt_compat_l; [now apply HX|]. apply Hlead; [exact Hx|now apply Hs'|exact Hne]. }
    assert (H2 : (rsum (map (fun f => residual fs pots b m w f (cf' f)) (seq 0 (length fs))) <= rsum (map (fun f => residual fs pots b m w f (cf f)) (seq 0 (length fs))))%R).
    { apply rsum_below. intros f Hf. apply in_seq in Hf. apply HF; [lia|]. apply Hc'. lia. }
    lra.
  Qed.
End Text.

Section Graph.
  Context (vgs : list vgroup) (g : fgraph R) (T : R) (c : bp_ctx R).
  Hypothesis Hok : groups_ok vgs.
  Hypothesis Hr : reachable vgs g.
  Hypothesis Hwf : wf_groups (gr_groups g).
  Hypothesis Hbp : bp_of g T c.
  Context (a : bp_arrays R).
  Hypothesis Ha : arrays_of c a.
  Hypothesis Hpos : forall gr k, In gr vgs -> In k (vg_num_states gr) -> 0 < k.
  Let fs := graph_factors 0%R (gr_groups g).
  Let pots := graph_pots (gr_groups g) (ba_log_potentials a).
  Let evs := read_ev (gr_vars_to_starts g) (ba_evidence a).
  Let m := read_msgs fs (ba_ftov_msgs a).
  Let xs := all_vars vgs.
  Let bel := text_belief fs evs m.
  Let sta x := argmax (map (fun s => Fin (bel x s)) (seq 0 (snd x)) ++ repeat NInf 0).
  Let Hin : incl (sf_edges fs) xs := edges_in vgs g T c Hok Hr Hwf Hbp.

  Lemma C71_bound_lemma : exists r b, get_beliefs c a = Ok r /\ belief_table vgs r b /\
    forall w X F, residuals_below fs pots b m w F -> (forall x s, In x xs -> s < snd x -> (share_left fs w x * b x s <= X x)%R) ->
    forall st cf, joint fs xs st cf -> (joint_score fs pots evs xs st cf <= rsum (map X xs) + rsum (map F (seq 0 (length fs))))%R.
  Proof.
    destruct (tables_belief vgs g T c Hok Hr Hwf Hbp a Ha Hpos) as [r [Er Tr]]. exists r, bel. do 2 (split; [assumption|]).
    exact (score_bound fs pots evs m xs (all_vars_NoDup vgs Hok) Hin).
  Qed.
  Hypothesis Hone : forall gr, In gr vgs -> one_state gr = false.
  Lemma sta_best x s : In x xs -> s < snd x -> (bel x s <= bel x (sta x))%R.
  Proof.
    intros Hx Hs. pose proof (argmax_first_best (bel x) (snd x) 0 (var_some vgs Hok Hpos x Hx)) as [_ [H _]]. now apply H.
  Qed.
  Lemma C71_gap_lemma : exists r q b st, get_beliefs c a = Ok r /\ decode_map_states r = Ok q /\ belief_table vgs r b /\ state_table vgs q st /\
    forall w F, residuals_below fs pots b m w F -> (forall x, In x xs -> (0 <= share_left fs w x)%R) ->
    forall cf, joint fs xs st cf -> forall st' cf', joint fs xs st' cf' ->
    (joint_score fs pots evs xs st' cf' - joint_score fs pots evs xs st cf <= rsum (map (fun f => F f - residual fs pots b m w f (cf f)) (seq 0 (length fs))))%R.
  Proof.
    destruct (tables_state vgs g T c Hok Hr Hwf Hbp a Ha Hpos Hone) as [r [q [Er [Eq [Tr Tq]]]]]. exists r, q, bel, sta. do 4 (split; [assumption|]).
    exact (score_gap fs pots evs m xs (all_vars_NoDup vgs Hok) Hin sta sta_best).
  Qed.
  Lemma C71_optimal_lemma : exists r q b st, get_beliefs c a = Ok r /\ decode_map_states r = Ok q /\ belief_table vgs r b /\ state_table vgs q st /\
    forall w cf, joint fs xs st cf -> residuals_below fs pots b m w (fun f => residual fs pots b m w f (cf f)) ->
    ((forall x, In x xs -> (0 <= share_left fs w x)%R) ->
     forall st' cf', joint fs xs st' cf' -> (joint_score fs pots evs xs st' cf' <= joint_score fs pots evs xs st cf)%R) /\
    ((forall x, In x xs -> (0 < share_left fs w x)%R) -> (forall x s, In x xs -> s < snd x -> s <> st x -> (b x s < b x (st x))%R) ->
     forall st' cf', joint fs xs st' cf' -> (joint_score fs pots evs xs st cf <= joint_score fs pots evs xs st' cf')%R -> forall x, In x xs -> st' x = st x).
  Proof.
    destruct (tables_state vgs g T c Hok Hr Hwf Hbp a Ha Hpos Hone) as [r [q [Er [Eq [Tr Tq]]]]]. exists r, q, bel, sta. do 4 (split; [assumption|]).
    intros w cf J HF. split.
    - intros HX. exact (score_optimal fs pots evs m xs (all_vars_NoDup vgs Hok) Hin sta sta_best w cf HX J HF).
    - intros HX Hl. exact (score_unique fs pots evs m xs (all_vars_NoDup vgs Hok) Hin sta sta_best w cf HX J HF Hl).
  Qed.
End Graph.
