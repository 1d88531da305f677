(** * Proofs about symmetric models (C65). *)
From Verif Require Import NumPy Lists VGroup FGraph BPState BP SpecVGroup SpecFGraph SpecFactor SpecAdd SpecWiring SpecState SpecBP SpecText SpecBeliefs SpecPerm SpecLocal SpecSymm.
From Verif Require Import LemFactor LemFGraph LemAdd LemWiring LemGraph LemState LemNum LemText LemRun LemBeliefs LemStable LemShift LemPerm LemLocal LemReorder.
From Coq Require Import Reals Lra Lia Permutation.
Local Open Scope nat_scope.

Section Symm.
  Context (vgs : list vgroup) (g : fgraph R) (T : R) (c : bp_ctx R).
  Hypothesis Hok : groups_ok vgs.
  Hypothesis Hr : reachable vgs g.
  Hypothesis Hwf : wf_groups (gr_groups g).
  Hypothesis Hbp : bp_of g T c.
  Context (a : bp_arrays R).
  Hypothesis Ha : arrays_of c a.
  Let fs := graph_factors 0%R (gr_groups g).
  Let pots := graph_pots (gr_groups g) (ba_log_potentials a).
  Let ne := length (enum_factors (gr_groups g)).
  Let lens := map snd (sf_edges fs).
  Let ev := read_ev (gr_vars_to_starts g) (ba_evidence a).
  Let msgs b := read_msgs fs (ba_ftov_msgs b).
  Context (d B P : R) (D K : nat).
  Hypothesis HT : (0 <= T)%R.
  Hypothesis Hd : (0 <= d <= 1)%R.
  Hypothesis M : moderate fs pots ne ev B P D K.
  Hypothesis Hsup : supported lens.
  Hypothesis Hfl : above_floor lens (ba_ftov_msgs a).
  Let sym := is_symmetry fs pots ev (msgs a) (all_vars vgs).

  Lemma C65_messages_lemma p w r t : sym p w r t -> forall n f u, f < length fs -> u < arity fs f ->
    same_msg fs p w t (msgs (run_bp c a n d)) (msgs (run_bp c a n d)) f u.
  Proof.
    intros [S1 [S2 [S3 S4]]] n f u Hf Hu.
    refine (C54_messages_lemma vgs vgs g g T c c Hok Hr Hwf Hbp Hok Hr Hwf Hbp a a Ha Ha d B P B P D K D K HT Hd M M Hsup Hsup Hfl Hfl p w r t S1 n f u Hf Hu _).
    apply all_same; [exact S2| |exact S4|exact Hf|exact Hu]. intros x Hx. apply S3. exact (edges_vars vgs g T c Hok Hr Hwf Hbp x Hx).
  Qed.
  Let bel n x := text_belief fs ev (msgs (run_bp c a n d)) x.
  Lemma symm_belief p w r t n x s : sym p w r t -> In x (all_vars vgs) -> s < snd x -> bel n (r x) (t x s) = bel n x s.
  Proof.
    intros S Hx Hs. refine (same_belief fs fs p w r t ev ev _ _ x s _ _ Hs).
    - destruct S as [_ [_ [S3 _]]]. now apply S3.
    - intros f u Hfu. apply In_slots_of in Hfu. destruct Hfu as [Hf [Hu _]]. now apply (C65_messages_lemma p w r t S).
  Qed.
  Hypothesis Hpos : forall gr k, In gr vgs -> In k (vg_num_states gr) -> 0 < k.
  Hypothesis Hone : forall gr, In gr vgs -> one_state gr = false.
  Lemma symm_results n : exists b q z, get_beliefs c (run_bp c a n d) = Ok b /\ decode_map_states b = Ok q /\ get_marginals b = Ok z /\
    forall gr, In gr vgs -> exists e y k, dget vg_eqb gr b = Some e /\ dget vg_eqb gr q = Some y /\ dget vg_eqb gr z = Some k /\
    forall i x, nth_error (vg_variables gr) i = Some x -> In x (all_vars vgs) /\
      row gr e i = map (fun s => Fin (bel n x s)) (seq 0 (snd x)) ++ repeat NInf (state_axis gr i - snd x) /\
      (exists s, cell gr y i = [s] /\ first_best (bel n x) (snd x) s) /\
      row gr k i = map (gibbs (bel n x) (snd x)) (seq 0 (snd x)) ++ repeat 0%R (state_axis gr i - snd x).
  Proof.
    pose proof (LemStable.run_arrays vgs g T c Hok Hr Hwf Hbp d a n Ha) as Hra.
    destruct (C34_lemma vgs g T c Hok Hr Hwf Hbp _ Hra Hpos Hone) as [b [q [Eb [Eq [_ Dq]]]]].
    destruct (C33_lemma vgs g T c Hok Hr Hwf Hbp _ Hra Hpos) as [b2 [Eb2 [_ Db]]]. rewrite Eb in Eb2. injection Eb2 as <-.
    destruct (C35_lemma vgs g T c Hok Hr Hwf Hbp _ Hra Hpos Hone) as [b2 [z [Eb2 [Ez [_ Dz]]]]]. rewrite Eb in Eb2. injection Eb2 as <-.
    exists b, q, z. do 3 (split; [assumption|]). intros gr Hg. destruct (Dq gr Hg) as [y [Ey [_ Cy]]]. destruct (Db gr Hg) as [e [Ee [_ Re]]]. destruct (Dz gr Hg) as [k [Ek [_ Rk]]].
    exists e, y, k. do 3 (split; [assumption|]). intros i x Hi.
    split; [unfold all_vars; apply in_concat; exists (vg_variables gr); split; [now apply in_map|]; now apply nth_error_In in Hi|].
    split; [exact (Re i x Hi)|]. split; [exact (Cy i x Hi)|exact (Rk i x Hi)].
  Qed.
  Lemma nth_states {X} (h : nat -> X) m k l z : z < m -> nth_error (map h (seq 0 m) ++ repeat l k) z = Some (h z).
  Proof.
    intros Hz. rewrite nth_error_app1 by (rewrite map_length, seq_length; exact Hz). apply (map_nth_error h z (seq 0 m)).
    rewrite (nth_error_nth' _ 0) by (rewrite seq_length; exact Hz). now rewrite seq_nth.
  Qed.
  Lemma C65_beliefs_lemma n : exists b q z, get_beliefs c (run_bp c a n d) = Ok b /\ decode_map_states b = Ok q /\ get_marginals b = Ok z /\
    forall gr gr', In gr vgs -> In gr' vgs -> exists e y k e' y' k',
      dget vg_eqb gr b = Some e /\ dget vg_eqb gr q = Some y /\ dget vg_eqb gr z = Some k /\
      dget vg_eqb gr' b = Some e' /\ dget vg_eqb gr' q = Some y' /\ dget vg_eqb gr' z = Some k' /\
    forall p w r t i x i', sym p w r t -> nth_error (vg_variables gr) i = Some x -> nth_error (vg_variables gr') i' = Some (r x) ->
      (forall s, s < snd x -> nth_error (row gr' e' i') (t x s) = nth_error (row gr e i) s /\ nth_error (row gr' k' i') (t x s) = nth_error (row gr k i) s) /\
      ((forall s, s < snd x -> t x s = s) -> cell gr' y' i' = cell gr y i).
  Proof.
    destruct (symm_results n) as [b [q [z [Eb [Eq [Ez H]]]]]]. exists b, q, z. do 3 (split; [assumption|]). intros gr gr' Hg Hg'.
    destruct (H gr Hg) as [e [y [k [E1 [E2 [E3 F]]]]]]. destruct (H gr' Hg') as [e' [y' [k' [E1' [E2' [E3' F']]]]]].
    exists e, y, k, e', y', k'. do 6 (split; [assumption|]). intros p w r t i x i' S Hi Hi'.
    destruct (F i x Hi) as [Hx [R1 [[s [C1 C2]] R2]]]. destruct (F' i' (r x) Hi') as [_ [R1' [[s' [C1' C2']] R2']]].
    pose proof S as [_ [_ [S3 _]]]. destruct (S3 x Hx) as [N1 [N2 _]]. rewrite N1 in *. split.
    - intros j Hj. assert (Ht : t x j < snd x) by (now apply N2). rewrite R1, R1', R2, R2', !nth_states by assumption. rewrite (symm_belief p w r t n x j S Hx Hj). split; [reflexivity|].
      f_equal. unfold gibbs. rewrite (symm_belief p w r t n x j S Hx Hj). f_equal.
      rewrite <- (map_map (bel n x) exp), <- (map_map (bel n (r x)) exp). apply rsum_perm. apply Permutation_map.
      eapply Permutation_trans; [apply Permutation_map, Permutation_sym, perm_below_seq; exact N2|]. rewrite map_map.
      erewrite map_ext_in; [apply Permutation_refl|]. intros v Hv. apply in_seq in Hv. cbv beta. apply (symm_belief p w r t n x v S Hx). lia.
    - intros Ht. rewrite C1, C1'. f_equal. apply (first_best_unique (bel n x) (bel n (r x)) (snd x)); [|exact C2|exact C2'].
      intros j Hj. rewrite <- (Ht j Hj) at 1. exact (symm_belief p w r t n x j S Hx Hj).
  Qed.
  Lemma C65_tied_lemma n : exists b q z, get_beliefs c (run_bp c a n d) = Ok b /\ decode_map_states b = Ok q /\ get_marginals b = Ok z /\
    forall gr, In gr vgs -> exists e y k, dget vg_eqb gr b = Some e /\ dget vg_eqb gr q = Some y /\ dget vg_eqb gr z = Some k /\
    forall i x, nth_error (vg_variables gr) i = Some x -> alike fs pots ev (msgs a) (all_vars vgs) x ->
      exists v pad, row gr e i = repeat (Fin v) (snd x) ++ repeat NInf pad /\ cell gr y i = [0] /\
        row gr k i = repeat (1 / INR (snd x))%R (snd x) ++ repeat 0%R pad.
  Proof.
    destruct (symm_results n) as [b [q [z [Eb [Eq [Ez H]]]]]]. exists b, q, z. do 3 (split; [assumption|]). intros gr Hg.
    destruct (H gr Hg) as [e [y [k [E1 [E2 [E3 F]]]]]]. exists e, y, k. do 3 (split; [assumption|]). intros i x Hi Hal.
    destruct (F i x Hi) as [Hx [R1 [[s [C1 C2]] R2]]]. exists (bel n x 0), (state_axis gr i - snd x).
    assert (E : forall j, j < snd x -> bel n x j = bel n x 0).
    { intros j Hj. destruct (Hal j Hj) as [p [w [r [t [S [Hrx <-]]]]]]. rewrite <- Hrx at 1. apply (symm_belief p w r t n x 0 S Hx). lia. }
    assert (Rep : forall {X} (h : nat -> X) v, (forall j, j < snd x -> h j = v) -> map h (seq 0 (snd x)) = repeat v (snd x)).
    { intros X h v Hh. rewrite (map_ext_in h (fun _ => v)) by (intros j Hj; apply in_seq in Hj; apply Hh; lia). rewrite (map_const _ v), seq_length by reflexivity. reflexivity. }
    split; [|split].
    - rewrite R1. f_equal. apply Rep. intros j Hj. now rewrite E.
    - rewrite C1. f_equal. destruct C2 as [C2 [C3 C4]]. destruct s as [|s]; [reflexivity|]. exfalso. specialize (C4 0 ltac:(lia)). rewrite (E (S s) C2) in C4. lra.
    - rewrite R2. f_equal. apply Rep. intros j Hj. unfold gibbs. rewrite (E j Hj).
      rewrite (Rep R (fun v => exp (bel n x v)) (exp (bel n x 0))) by (intros v Hv; now rewrite E).
      assert (Es : forall m v, rsum (repeat v m) = (INR m * v)%R).
      { intros m v. induction m as [|m IH]; [cbn; lra|]. cbn [repeat]. rewrite LemNum.rsum_cons, IH, S_INR. lra. }
      rewrite Es. pose proof (exp_pos (bel n x 0)). assert (0 < INR (snd x))%R by (apply lt_0_INR; lia). field. split; lra.
  Qed.
End Symm.
