(** * Property C66: attractive models. *)
From Verif Require Import NumPy FGroup FGraph BPState BP Lists SpecVGroup SpecFactor SpecFGraph SpecAdd SpecWiring SpecState SpecBP SpecText SpecBeliefs SpecStable SpecConv SpecMono.
From Verif Require Import LemTransfer LemRising ExBP ExCycle ExMono.
From Coq Require Import Reals Lra Lia QArith Qreals.
Local Close Scope Q_scope.
Local Close Scope R_scope.
Local Open Scope nat_scope.

(** Two runs with the same attractive potentials: when the second one's evidence and initial
    messages favour higher states more, so do all its messages. Variables have two states, or
    the temperature is 0 and no message is clipped. *)
Theorem C66_messages :
  forall vgs (g : fgraph R) T (c : bp_ctx R),
  groups_ok vgs -> reachable vgs g -> wf_groups (gr_groups g) -> bp_of g T c ->
  let fs := graph_factors 0%R (gr_groups g) in
  let pots b := graph_pots (gr_groups g) (ba_log_potentials b) in
  let ne := length (enum_factors (gr_groups g)) in
  let lens := map snd (sf_edges fs) in
  let evs b := read_ev (gr_vars_to_starts g) (ba_evidence b) in
  let msgs b := read_msgs fs (ba_ftov_msgs b) in
  supported lens -> forall d, (0 <= T)%R -> (0 <= d <= 1)%R ->
  forall a a' B P B' P' D K D' K', arrays_of c a -> arrays_of c a' ->
  moderate fs (pots a) ne (evs a) B P D K -> moderate fs (pots a') ne (evs a') B' P' D' K' ->
  above_floor lens (ba_ftov_msgs a) -> above_floor lens (ba_ftov_msgs a') ->
  ba_log_potentials a' = ba_log_potentials a -> attractive fs (pots a) ->
  ev_favours (all_vars vgs) (evs a) (evs a') -> msgs_favour fs (msgs a) (msgs a') ->
  forall n,
  (binary fs /\ (T <> 0%R -> distinct fs)) \/
  (T = 0%R /\ forall i, i <= n -> inside fs (msgs (run_bp c a i d)) /\ inside fs (msgs (run_bp c a' i d))) ->
  msgs_favour fs (msgs (run_bp c a n d)) (msgs (run_bp c a' n d)).
Proof. exact C66_messages_lemma. Qed.
Print Assumptions C66_messages.

(** Then its beliefs favour higher states more, no variable decodes to a lower state, and the
    marginal probability of the states from any state on is at least as large. *)
Theorem C66_beliefs :
  forall vgs (g : fgraph R) T (c : bp_ctx R),
  groups_ok vgs -> reachable vgs g -> wf_groups (gr_groups g) -> bp_of g T c ->
  let fs := graph_factors 0%R (gr_groups g) in
  let pots b := graph_pots (gr_groups g) (ba_log_potentials b) in
  let ne := length (enum_factors (gr_groups g)) in
  let lens := map snd (sf_edges fs) in
  let evs b := read_ev (gr_vars_to_starts g) (ba_evidence b) in
  let msgs b := read_msgs fs (ba_ftov_msgs b) in
  supported lens -> forall d, (0 <= T)%R -> (0 <= d <= 1)%R ->
  forall a a' B P B' P' D K D' K', arrays_of c a -> arrays_of c a' ->
  moderate fs (pots a) ne (evs a) B P D K -> moderate fs (pots a') ne (evs a') B' P' D' K' ->
  above_floor lens (ba_ftov_msgs a) -> above_floor lens (ba_ftov_msgs a') ->
  ba_log_potentials a' = ba_log_potentials a -> attractive fs (pots a) ->
  ev_favours (all_vars vgs) (evs a) (evs a') -> msgs_favour fs (msgs a) (msgs a') ->
  forall n,
  (binary fs /\ (T <> 0%R -> distinct fs)) \/
  (T = 0%R /\ forall i, i <= n -> inside fs (msgs (run_bp c a i d)) /\ inside fs (msgs (run_bp c a' i d))) ->
  (forall gr k, In gr vgs -> In k (vg_num_states gr) -> 0 < k) -> (forall gr, In gr vgs -> one_state gr = false) ->
  exists b q z b' q' z', get_beliefs c (run_bp c a n d) = Ok b /\ decode_map_states b = Ok q /\ get_marginals b = Ok z /\
    get_beliefs c (run_bp c a' n d) = Ok b' /\ decode_map_states b' = Ok q' /\ get_marginals b' = Ok z' /\
  forall gr, In gr vgs -> exists e y k e' y' k',
    dget vg_eqb gr b = Some e /\ dget vg_eqb gr q = Some y /\ dget vg_eqb gr z = Some k /\
    dget vg_eqb gr b' = Some e' /\ dget vg_eqb gr q' = Some y' /\ dget vg_eqb gr z' = Some k' /\
  forall i x, nth_error (vg_variables gr) i = Some x ->
    (exists h h' pad, row gr e i = map (fun s => Fin (h s)) (seq 0 (snd x)) ++ repeat NInf pad /\
       row gr e' i = map (fun s => Fin (h' s)) (seq 0 (snd x)) ++ repeat NInf pad /\ favours (snd x) h h') /\
    (exists s s', cell gr y i = [s] /\ cell gr y' i = [s'] /\ s <= s') /\
    (forall j, (rsum (skipn j (row gr k i)) <= rsum (skipn j (row gr k' i)))%R).
Proof. exact C66_beliefs_lemma. Qed.
Print Assumptions C66_beliefs.

(** On an attractive model with two states per variable, if the first iteration favours higher
    states then so does every later one, and the run converges to a fixed point. *)
Theorem C66_rising :
  forall vgs (g : fgraph R) T (c : bp_ctx R),
  groups_ok vgs -> reachable vgs g -> wf_groups (gr_groups g) -> bp_of g T c ->
  let fs := graph_factors 0%R (gr_groups g) in
  let lens := map snd (sf_edges fs) in
  supported lens -> forall d, (0 <= T)%R -> (0 <= d <= 1)%R ->
  forall a B P D K, arrays_of c a ->
  let pots := graph_pots (gr_groups g) (ba_log_potentials a) in
  moderate fs pots (length (enum_factors (gr_groups g))) (read_ev (gr_vars_to_starts g) (ba_evidence a)) B P D K ->
  attractive fs pots -> binary fs -> (T <> 0%R -> distinct fs) ->
  let start m := length m = length (ba_ftov_msgs a) /\ above_floor lens m in
  let run m n := ba_ftov_msgs (run_bp c (with_msgs a m) n d) in
  let read := read_msgs fs in
  forall m, start m -> msgs_favour fs (read (run m 0)) (read (run m 1)) ->
  (forall n k, n <= k -> msgs_favour fs (read (run m n)) (read (run m k))) /\
  exists l, start l /\ (forall n, run l n = l) /\
    (forall eps, (0 < eps)%R -> exists N, forall n i, N <= n -> (Rabs (nth i (run m n) 0 - nth i l 0) < eps)%R) /\
    (forall n, msgs_favour fs (read (run m n)) (read l)).
Proof. exact C66_rising_lemma. Qed.
Print Assumptions C66_rising.
Theorem C66_falling :
  forall vgs (g : fgraph R) T (c : bp_ctx R),
  groups_ok vgs -> reachable vgs g -> wf_groups (gr_groups g) -> bp_of g T c ->
  let fs := graph_factors 0%R (gr_groups g) in
  let lens := map snd (sf_edges fs) in
  supported lens -> forall d, (0 <= T)%R -> (0 <= d <= 1)%R ->
  forall a B P D K, arrays_of c a ->
  let pots := graph_pots (gr_groups g) (ba_log_potentials a) in
  moderate fs pots (length (enum_factors (gr_groups g))) (read_ev (gr_vars_to_starts g) (ba_evidence a)) B P D K ->
  attractive fs pots -> binary fs -> (T <> 0%R -> distinct fs) ->
  let start m := length m = length (ba_ftov_msgs a) /\ above_floor lens m in
  let run m n := ba_ftov_msgs (run_bp c (with_msgs a m) n d) in
  let read := read_msgs fs in
  forall m, start m -> msgs_favour fs (read (run m 1)) (read (run m 0)) ->
  (forall n k, n <= k -> msgs_favour fs (read (run m k)) (read (run m n))) /\
  exists l, start l /\ (forall n, run l n = l) /\
    (forall eps, (0 < eps)%R -> exists N, forall n i, N <= n -> (Rabs (nth i (run m n) 0 - nth i l 0) < eps)%R) /\
    (forall n, msgs_favour fs (read l) (read (run m n))).
Proof. exact C66_falling_lemma. Qed.
Print Assumptions C66_falling.

(** The runs from the messages that favour state 0 most and state 1 most converge; every run
    stays between them, and every fixed or periodic message array lies between their limits.
    If the two limits agree, every run converges to them. *)
Theorem C66_extremes :
  forall vgs (g : fgraph R) T (c : bp_ctx R),
  groups_ok vgs -> reachable vgs g -> wf_groups (gr_groups g) -> bp_of g T c ->
  let fs := graph_factors 0%R (gr_groups g) in
  let lens := map snd (sf_edges fs) in
  supported lens -> forall d, (0 <= T)%R -> (0 <= d <= 1)%R ->
  forall a B P D K, arrays_of c a ->
  let pots := graph_pots (gr_groups g) (ba_log_potentials a) in
  moderate fs pots (length (enum_factors (gr_groups g))) (read_ev (gr_vars_to_starts g) (ba_evidence a)) B P D K ->
  attractive fs pots -> binary fs -> (T <> 0%R -> distinct fs) ->
  let start m := length m = length (ba_ftov_msgs a) /\ above_floor lens m in
  let run m n := ba_ftov_msgs (run_bp c (with_msgs a m) n d) in
  let read := read_msgs fs in
  let tends m l := forall eps, (0 < eps)%R -> exists N, forall n i, N <= n -> (Rabs (nth i (run m n) 0 - nth i l 0) < eps)%R in
  forall lo hi, length lo = length (ba_ftov_msgs a) -> length hi = length (ba_ftov_msgs a) ->
  msg_eq fs (read lo) lowest -> msg_eq fs (read hi) highest ->
  start lo /\ start hi /\
  (forall m n, start m -> msgs_favour fs (read (run lo n)) (read (run m n)) /\ msgs_favour fs (read (run m n)) (read (run hi n))) /\
  exists l h, start l /\ start h /\ (forall n, run l n = l) /\ (forall n, run h n = h) /\ tends lo l /\ tends hi h /\
    (forall m n, start m -> 0 < n -> run m n = m -> msgs_favour fs (read l) (read m) /\ msgs_favour fs (read m) (read h)) /\
    (l = h -> forall m, start m -> tends m l).
Proof. exact C66_extremes_lemma. Qed.
Print Assumptions C66_extremes.

(** The triangle whose factors prefer equal states. More evidence for state 1 of one variable
    lowers no marginal of state 1, at any temperature, damping and iteration. *)
Example C66_nonvacuous : forall T d n, (0 <= T)%R -> (0 <= d <= 1)%R ->
  let run ev := run_bp (cy_c T) (at_a (repeat 0%R 12) ev) n d in
  exists b z b' z' k k', get_beliefs (cy_c T) (run [0; 1; 2; 0; 0; 0]%R) = Ok b /\ get_marginals b = Ok z /\
    get_beliefs (cy_c T) (run [0; 1; 0; 3; 0; 0]%R) = Ok b' /\ get_marginals b' = Ok z' /\
    dget vg_eqb (VA cy_vg) z = Some k /\ dget vg_eqb (VA cy_vg) z' = Some k' /\
    forall i, i < 3 -> (rsum (skipn 1 (row (VA cy_vg) k i)) <= rsum (skipn 1 (row (VA cy_vg) k' i)))%R.
Proof.
  intros T d n HT Hd run. set (e := [0; 1; 2; 0; 0; 0]%R). set (e' := [0; 1; 0; 3; 0; 0]%R).
  destruct (cy_given T e eq_refl) as [H1 [H2 [H3 [H4 _]]]].
  assert (B1 : forall j, (-10 <= nth j e 0 <= 10)%R) by (intros j; do 6 (destruct j as [|j]; [cbn; lra|]); destruct j; cbn; lra).
  assert (B2 : forall j, (-10 <= nth j e' 0 <= 10)%R) by (intros j; do 6 (destruct j as [|j]; [cbn; lra|]); destruct j; cbn; lra).
  destruct (C66_beliefs cy_vgs cy_g T (cy_c T) H1 H2 H3 H4 cy_supported d HT Hd (at_a (repeat 0%R 12) e) (at_a (repeat 0%R 12) e') 10%R 10%R 10%R 10%R 6 2 6 2
    ltac:(repeat split) ltac:(repeat split) (at_moderate e B1) (at_moderate e' B2) (cy_above _) (cy_above _) eq_refl at_attractive) with (n := n)
    as [b [q [z [b' [q' [z' [Eb [_ [Ez [Eb' [_ [Ez' H]]]]]]]]]]]].
  - intros x Hx s t Hst Hs. change (In x [b0; b1; b2]) in Hx. destruct Hx as [<-|[<-|[<-|[]]]]; change (s < 2) in Hs; (destruct s as [|[|]]; [| |lia]); (destruct t as [|[|]]; try lia); unfold read_ev; cbn; lra.
  - intros f u _ _ s t _ _. apply Rle_refl.
  - left. split; [exact cy_binary|]. intros _. exact cy_distinct.
  - exact (proj1 cy_states).
  - exact (proj2 cy_states).
  - destruct (H (VA cy_vg) (or_introl eq_refl)) as [e1 [y [k [e1' [y' [k' [E1 [E2 [E3 [E1' [E2' [E3' F]]]]]]]]]]]].
    exists b, z, b', z', k, k'. do 6 (split; [assumption|]). intros i Hi.
    destruct (nth_error (vg_variables (VA cy_vg)) i) as [x|] eqn:Ex; [|apply nth_error_None in Ex; cbn in Ex; lia].
    destruct (F i x Ex) as [_ [_ T1]]. exact (T1 1).
Qed.
(** On the triangle the run from the messages that favour state 0 most converges, and so does
    the one from the opposite end. Without evidence both are there, at temperature 0. *)
Example C66_extremes_nonvacuous : forall T d ev, (0 <= T)%R -> (0 <= d <= 1)%R -> length ev = 6 -> (forall i, (-10 <= nth i ev 0 <= 10)%R) ->
  let run m n := ba_ftov_msgs (run_bp (cy_c T) (with_msgs (at_a (repeat 0%R 12) ev) m) n d) in
  exists l h, length l = 12 /\ length h = 12 /\ run l 1 = l /\ run h 1 = h /\
    (forall eps, (0 < eps)%R -> exists N, forall n i, N <= n -> (Rabs (nth i (run at_lo n) 0 - nth i l 0) < eps)%R) /\
    (forall m, length m = 12 -> run m 1 = m -> msgs_favour cy_rfs (read_msgs cy_rfs l) (read_msgs cy_rfs m) /\ msgs_favour cy_rfs (read_msgs cy_rfs m) (read_msgs cy_rfs h)).
Proof.
  intros T d ev HT Hd He Hb run. destruct (cy_given T ev He) as [H1 [H2 [H3 [H4 _]]]].
  destruct (C66_extremes cy_vgs cy_g T (cy_c T) H1 H2 H3 H4 cy_supported d HT Hd (at_a (repeat 0%R 12) ev) 10%R 10%R 6 2
    ltac:(repeat split; exact He) (at_moderate ev Hb) at_attractive cy_binary (fun _ => cy_distinct) at_lo at_hi eq_refl eq_refl at_lowest at_highest)
    as [_ [_ [_ [l [h [[Sl _] [[Sh _] [Fl [Fh [Tl [_ [Per _]]]]]]]]]]]].
  exists l, h. split; [exact Sl|]. split; [exact Sh|]. split; [exact (Fl 1)|]. split; [exact (Fh 1)|]. split; [exact Tl|].
  intros m Lm E. exact (Per m 1 (conj Lm (cy_above m)) Nat.lt_0_1 E).
Qed.
(** The two can differ: without evidence, at temperature 0, all messages for state 0 and all
    messages for state 1 stay. *)
Example C66_two_ends : let run m := ba_ftov_msgs (run_bp (cy_c 0) (at_a (map IZR m) (map IZR (repeat 0%Z 6))) 1 0%R) in
  run [0; -4; 0; -4; 0; -4; 0; -4; 0; -4; 0; -4]%Z = map IZR [0; -4; 0; -4; 0; -4; 0; -4; 0; -4; 0; -4]%Z /\
  run [-4; 0; -4; 0; -4; 0; -4; 0; -4; 0; -4; 0]%Z = map IZR [-4; 0; -4; 0; -4; 0; -4; 0; -4; 0; -4; 0]%Z.
Proof. split; apply at_transfer; vm_compute; reflexivity. Qed.
(** Without clipping the states may be more than two. *)
Example C66_three_states : inside th_fs (read_msgs th_fs [0; -1; -2]%R) /\ attractive th_fs (graph_pots (gr_groups th_g) (map IZR [0; 0; 0]%Z)).
Proof.
  split; [|exact th_attractive]. intros f u s Hf Hu Hs. assert (Hf1 : f < 1) by exact Hf. destruct f; [|lia]. destruct u as [|]; [|exfalso; vm_compute in Hu; lia].
  destruct s as [|[|[|]]]; [..|exfalso; vm_compute in Hs; lia]; unfold read_msgs; cbn; lra.
Qed.

(** Attractive potentials are needed: on the triangle with one factor that prefers different
    states, favouring state 1 of one variable lowers another. *)
Theorem C66_any_model_refuted :
  ~ (forall vgs (g : fgraph R) (c : bp_ctx R),
     groups_ok vgs -> reachable vgs g -> wf_groups (gr_groups g) -> bp_of g 0%R c ->
     let fs := graph_factors 0%R (gr_groups g) in
     let pots b := graph_pots (gr_groups g) (ba_log_potentials b) in
     let ne := length (enum_factors (gr_groups g)) in
     let lens := map snd (sf_edges fs) in
     let evs b := read_ev (gr_vars_to_starts g) (ba_evidence b) in
     let msgs b := read_msgs fs (ba_ftov_msgs b) in
     supported lens -> forall a a' B P D K, arrays_of c a -> arrays_of c a' ->
     moderate fs (pots a) ne (evs a) B P D K -> moderate fs (pots a') ne (evs a') B P D K ->
     above_floor lens (ba_ftov_msgs a) -> above_floor lens (ba_ftov_msgs a') ->
     ba_log_potentials a' = ba_log_potentials a ->
     ev_favours (all_vars vgs) (evs a) (evs a') -> msgs_favour fs (msgs a) (msgs a') -> binary fs ->
     forall n, msgs_favour fs (msgs (run_bp c a n 0%R)) (msgs (run_bp c a' n 0%R))).
Proof.
  intros H. destruct (cy_given 0 (map IZR (repeat 0%Z 6)) eq_refl) as [H1 [H2 [H3 [H4 _]]]].
  set (m := repeat 0%Z 12). set (m' := [-1; 0; 0; 0; 0; 0; 0; 0; 0; 0; 0; 0]%Z).
  assert (Hf2 : 2 < length cy_rfs) by (vm_compute; lia). assert (Hu0 : 0 < arity cy_rfs 2) by (vm_compute; lia).
  assert (Fav : msgs_favour cy_rfs (read_msgs cy_rfs (map IZR m)) (read_msgs cy_rfs (map IZR m'))).
  { intros f u Hf Hu s t Hst Hs. rewrite (cy_binary f u Hf Hu) in Hs. assert (Hf3 : f < 3) by exact Hf.
    destruct f as [|[|[|]]]; try lia; (destruct u as [|[|]]; [| |exfalso; vm_compute in Hu; lia]); (destruct s as [|[|]]; [| |lia]); (destruct t as [|[|]]; try lia); unfold read_msgs; cbn; lra. }
  pose proof (H cy_vgs cy_g (cy_c 0) H1 H2 H3 H4 cy_supported (with_msgs cy_flat (map IZR m)) (with_msgs cy_flat (map IZR m')) 10%R 10%R 6 2
    ltac:(now apply cy_arrays_of) ltac:(now apply cy_arrays_of) cy_flat_given cy_flat_given (cy_above _) (cy_above _) eq_refl
    (fun x _ s t _ _ => Rle_refl _) Fav cy_binary 1 2 0 Hf2 Hu0 1 0 (le_S _ _ (le_n 0)) ltac:(vm_compute; lia)) as X.
  unfold read_msgs in X.
  assert (E : ba_ftov_msgs (run_bp (cy_c 0) (with_msgs cy_flat (map IZR m)) 1 0%R) = map IZR (repeat 0%Z 12)) by (apply cy_transfer; vm_compute; reflexivity).
  assert (E' : ba_ftov_msgs (run_bp (cy_c 0) (with_msgs cy_flat (map IZR m')) 1 0%R) = map IZR [0; 0; 0; 0; 0; 0; 0; 0; 0; -1; 0; 0]%Z) by (apply cy_transfer; vm_compute; reflexivity).
  change (graph_factors 0%R (gr_groups cy_g)) with cy_rfs in X. rewrite E, E' in X. cbn in X. lra.
Qed.
Print Assumptions C66_any_model_refuted.

(** Clipping at -1000 breaks the order for three states: [0; -500; -3000] and [0; -100; -2500]
    become [0; -500; -1000] and [0; -100; -1000]. *)
Theorem C66_clipped_refuted :
  ~ (forall vgs (g : fgraph R) (c : bp_ctx R),
     groups_ok vgs -> reachable vgs g -> wf_groups (gr_groups g) -> bp_of g 0%R c ->
     let fs := graph_factors 0%R (gr_groups g) in
     let pots b := graph_pots (gr_groups g) (ba_log_potentials b) in
     let ne := length (enum_factors (gr_groups g)) in
     let lens := map snd (sf_edges fs) in
     let evs b := read_ev (gr_vars_to_starts g) (ba_evidence b) in
     let msgs b := read_msgs fs (ba_ftov_msgs b) in
     supported lens -> forall a a' B P D K, arrays_of c a -> arrays_of c a' ->
     moderate fs (pots a) ne (evs a) B P D K -> moderate fs (pots a') ne (evs a') B P D K ->
     above_floor lens (ba_ftov_msgs a) -> above_floor lens (ba_ftov_msgs a') ->
     ba_log_potentials a' = ba_log_potentials a -> attractive fs (pots a) ->
     ev_favours (all_vars vgs) (evs a) (evs a') -> msgs_favour fs (msgs a) (msgs a') ->
     forall n, msgs_favour fs (msgs (run_bp c a n 0%R)) (msgs (run_bp c a' n 0%R))).
Proof.
  intros H. set (m := [0; -500; -3000]%Z). set (m' := [0; -100; -2500]%Z).
  assert (Fav : msgs_favour th_fs (read_msgs th_fs (map IZR m)) (read_msgs th_fs (map IZR m'))).
  { intros f u Hf Hu s t Hst Hs. assert (Hf1 : f < 1) by exact Hf. destruct f; [|lia]. destruct u as [|]; [|exfalso; vm_compute in Hu; lia]. change (s < 3) in Hs.
    destruct s as [|[|[|]]]; try lia; (destruct t as [|[|[|]]]; try lia); unfold read_msgs; cbn; lra. }
  pose proof (H ex_vgs th_g th_c ex_vgs_ok (th_reach IZR) (th_wf IZR) (th_bp_of IZR 0%R) th_supported (th_arrays IZR (map IZR m)) (th_arrays IZR (map IZR m')) 10%R 10%R 1 1
    ltac:(now apply th_arrays_of) ltac:(now apply th_arrays_of) (th_moderate _) (th_moderate _) (th_above _) (th_above _) eq_refl th_attractive
    (fun x _ s t _ _ => Rle_refl _) Fav 0 0 0 Nat.lt_0_1 Nat.lt_0_1 2 1 (le_S _ _ (le_n 1)) (le_n 3)) as X.
  assert (Tr : forall q r, ba_ftov_msgs (run_bp (th_ctx inject_Z 0%Q) (th_arrays inject_Z (map inject_Z q)) 0 0%Q) = map inject_Z r ->
    ba_ftov_msgs (run_bp th_c (th_arrays IZR (map IZR q)) 0 0%R) = map IZR r).
  { intros q r E. assert (S : same_ctx (th_ctx inject_Z 0%Q) th_c) by (repeat split).
    pose proof (f_equal ba_ftov_msgs (run_Q _ _ (th_arrays inject_Z (map inject_Z q)) 0 0%Q S)) as T1.
    change (map Q2R (ba_ftov_msgs (run_bp (th_ctx inject_Z 0%Q) (th_arrays inject_Z (map inject_Z q)) 0 0%Q))
      = ba_ftov_msgs (run_bp th_c (Build_bp_arrays (map Q2R (map inject_Z [0; 0; 0]%Z)) (map Q2R (map inject_Z q)) (map Q2R (map inject_Z (repeat 0%Z 11)))) 0 (Q2R 0))) in T1.
    rewrite E, !Q2R_map, RMicromega.Q2R_0 in T1. symmetry. exact T1. }
  unfold read_msgs in X. change (graph_factors 0%R (gr_groups th_g)) with th_fs in X.
  rewrite (Tr m [0; -500; -1000]%Z), (Tr m' [0; -100; -1000]%Z) in X by (vm_compute; reflexivity). cbn in X. lra.
Qed.
Print Assumptions C66_clipped_refuted.
