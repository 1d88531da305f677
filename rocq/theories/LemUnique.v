(** * Decoding a unique best assignment on acyclic graphs (towards C42). *)
From Verif Require Import NumPy Lists VGroup FGraph BPState BP SpecVGroup SpecFGraph SpecFactor SpecWiring SpecState SpecBP SpecText SpecBeliefs SpecTree SpecFix.
From Verif Require Import LemVGroup LemFGraph LemState LemText LemRun LemBeliefs LemTree LemExact LemSpread.
From Coq Require Import Reals Lra Lia.
Local Open Scope nat_scope.

Lemma C42_unique_lemma vgs (g : fgraph R) (c : bp_ctx R) : groups_ok vgs -> reachable vgs g -> wf_groups (gr_groups g) -> bp_of g 0%R c ->
  forall a, arrays_of c a ->
  let fs := graph_factors 0%R (gr_groups g) in
  let pots := graph_pots (gr_groups g) (ba_log_potentials a) in
  let ev := read_ev (gr_vars_to_starts g) (ba_evidence a) in
  let lens := map snd (sf_edges fs) in
  let xs := all_vars vgs in
  (forall gr k, In gr vgs -> In k (vg_num_states gr) -> 0 < k) ->
  acyclic fs -> (forall f, f < length fs -> 0 < arity fs f) ->
  forall B P D K P' B' M' N', moderate fs pots (length (enum_factors (gr_groups g))) ev B P D K ->
  small fs 0 pots ev (read_msgs fs (ba_ftov_msgs a)) P' B' M' N' ->
  supported lens -> above_floor lens (ba_ftov_msgs a) ->
  (forall gr, In gr vgs -> one_state gr = false) ->
  forall st cf, joint fs xs st cf ->
  (forall st' cf', joint fs xs st' cf' -> (exists x, In x xs /\ st' x <> st x) -> (joint_score fs pots ev xs st' cf' < joint_score fs pots ev xs st cf)%R) ->
  forall n, length fs <= n ->
  exists b q, get_beliefs c (run_bp c a n 0%R) = Ok b /\ decode_map_states b = Ok q /\ map fst q = vgs /\ state_table vgs q st.
Proof.
  intros Hok Hr Hwf Hbp a Ha fs pots ev lens xs Hpos Hac Har B P D K P' B' M' N' Hmod Hsm Hsup Hfl Hone st cf J U n Hn.
  destruct (small_given vgs g 0%R c Hok Hr Hwf Hbp a Ha B P D K Hmod ltac:(lra) Hsup Hfl Hac P' B' M' N' Hsm) as [G1 [G2 G3]].
  destruct (C42_map_lemma vgs g c Hok Hr Hwf Hbp a Ha n) as [b [q [Eb [Eq [Kq H]]]]]; auto.
  { intros i Hi. specialize (G1 i). rewrite fac_to_var_0 in G1. exact G1. }
  exists b, q. split; [exact Eb|]. split; [exact Eq|]. split; [exact Kq|]. intros gr Hg. destruct (H gr Hg) as [d [Ed [_ Hd]]].
  exists d. split; [exact Ed|]. intros i x Hi. destruct (Hd i x Hi) as [s [Es [st' [cf' [J' [E' M]]]]]]. rewrite Es. f_equal.
  destruct (Nat.eq_dec (st' x) (st x)) as [E|Hne]; [congruence|]. exfalso. specialize (M st cf J).
  assert (Hx : In x xs). { unfold xs, all_vars. apply in_concat. exists (vg_variables gr). split; [now apply in_map|]. eapply nth_error_In. exact Hi. }
  specialize (U st' cf' J' (ex_intro _ x (conj Hx Hne))). unfold fs, pots, ev, xs in *. lra.
Qed.
