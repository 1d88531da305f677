(** * Property C42: acyclic graphs. *)
From Verif Require Import NumPy Lists VGroup FGraph BPState BP SpecVGroup SpecFGraph SpecFactor SpecWiring SpecState SpecBP SpecText SpecBeliefs SpecTree.
From Verif Require Import LemExact LemSpread ExBP ExTree PropsBeliefs.
From Coq Require Import Reals Lra Lia QArith.
Local Close Scope Q_scope.
Local Close Scope R_scope.
Local Open Scope nat_scope.

(** ** C42 *)
(** Undamped max-product on an acyclic graph: after as many iterations as there are factors
    the beliefs are max-marginals up to a constant per variable. *)
Theorem C42_beliefs :
  forall vgs (g : fgraph R) (c : bp_ctx R),
  groups_ok vgs -> reachable vgs g -> wf_groups (gr_groups g) -> bp_of g 0%R c ->
  forall a, arrays_of c a ->
  let fs := graph_factors 0%R (gr_groups g) in
  let pots := graph_pots (gr_groups g) (ba_log_potentials a) in
  let ev := read_ev (gr_vars_to_starts g) (ba_evidence a) in
  let lens := map snd (sf_edges fs) in
  let text := text_bp fs pots 0 0 ev (read_msgs fs (ba_ftov_msgs a)) in
  forall n,
  (forall gr k, In gr vgs -> In k (vg_num_states gr) -> 0 < k) ->
  acyclic fs -> (forall f, f < length fs -> 0 < arity fs f) ->
  length fs <= n ->
  (forall i, i < n -> unclipped fs (fac_to_var_max fs pots (var_to_fac fs ev (text i)))) ->
  supported lens ->
  (forall i, i <= n -> above_floor lens (unnormalised c a 0 i)) ->
  (forall i, i < n -> in_range fs pots (length (enum_factors (gr_groups g))) 0 (var_to_fac fs ev (text i))) ->
  exists b, get_beliefs c (run_bp c a n 0%R) = Ok b /\ map fst b = vgs /\
    forall gr, In gr vgs -> exists d, dget vg_eqb gr b = Some d /\ per_state_shape gr d /\
      forall i x, nth_error (vg_variables gr) i = Some x -> exists (mm : nat -> R) (k : R),
        (forall s, s < snd x -> max_marginal fs pots ev (all_vars vgs) x s (mm s)) /\
        row gr d i = map (fun s => Fin (mm s + k)%R) (seq 0 (snd x)) ++ repeat NInf (state_axis gr i - snd x).
Proof. exact C42_beliefs_lemma. Qed.
Print Assumptions C42_beliefs.

(** With hypotheses about the inputs only. *)
Theorem C42_small :
  forall vgs (g : fgraph R) (c : bp_ctx R),
  groups_ok vgs -> reachable vgs g -> wf_groups (gr_groups g) -> bp_of g 0%R c ->
  forall a, arrays_of c a ->
  let fs := graph_factors 0%R (gr_groups g) in
  let pots := graph_pots (gr_groups g) (ba_log_potentials a) in
  let ev := read_ev (gr_vars_to_starts g) (ba_evidence a) in
  let lens := map snd (sf_edges fs) in
  (forall gr k, In gr vgs -> In k (vg_num_states gr) -> 0 < k) ->
  acyclic fs -> (forall f, f < length fs -> 0 < arity fs f) ->
  forall B P D K P' B' M' N', moderate fs pots (length (enum_factors (gr_groups g))) ev B P D K ->
  small fs 0 pots ev (read_msgs fs (ba_ftov_msgs a)) P' B' M' N' ->
  supported lens -> above_floor lens (ba_ftov_msgs a) ->
  forall n, length fs <= n ->
  exists b, get_beliefs c (run_bp c a n 0%R) = Ok b /\ map fst b = vgs /\
    forall gr, In gr vgs -> exists d, dget vg_eqb gr b = Some d /\ per_state_shape gr d /\
      forall i x, nth_error (vg_variables gr) i = Some x -> exists (mm : nat -> R) (k : R),
        (forall s, s < snd x -> max_marginal fs pots ev (all_vars vgs) x s (mm s)) /\
        row gr d i = map (fun s => Fin (mm s + k)%R) (seq 0 (snd x)) ++ repeat NInf (state_axis gr i - snd x).
Proof. exact C42_small_lemma. Qed.
Print Assumptions C42_small.

(** Every decoded state belongs to an assignment of largest score. *)
Theorem C42_map :
  forall vgs (g : fgraph R) (c : bp_ctx R),
  groups_ok vgs -> reachable vgs g -> wf_groups (gr_groups g) -> bp_of g 0%R c ->
  forall a, arrays_of c a ->
  let fs := graph_factors 0%R (gr_groups g) in
  let pots := graph_pots (gr_groups g) (ba_log_potentials a) in
  let ev := read_ev (gr_vars_to_starts g) (ba_evidence a) in
  let lens := map snd (sf_edges fs) in
  let xs := all_vars vgs in
  let text := text_bp fs pots 0 0 ev (read_msgs fs (ba_ftov_msgs a)) in
  forall n,
  (forall gr k, In gr vgs -> In k (vg_num_states gr) -> 0 < k) ->
  acyclic fs -> (forall f, f < length fs -> 0 < arity fs f) ->
  length fs <= n ->
  (forall i, i < n -> unclipped fs (fac_to_var_max fs pots (var_to_fac fs ev (text i)))) ->
  supported lens ->
  (forall i, i <= n -> above_floor lens (unnormalised c a 0 i)) ->
  (forall i, i < n -> in_range fs pots (length (enum_factors (gr_groups g))) 0 (var_to_fac fs ev (text i))) ->
  (forall gr, In gr vgs -> one_state gr = false) ->
  exists b q, get_beliefs c (run_bp c a n 0%R) = Ok b /\ decode_map_states b = Ok q /\ map fst q = vgs /\
    forall gr, In gr vgs -> exists d, dget vg_eqb gr q = Some d /\ per_var_shape gr d /\
      forall i x, nth_error (vg_variables gr) i = Some x -> exists s, cell gr d i = [s] /\
        exists st cf, joint fs xs st cf /\ st x = s /\
          forall st' cf', joint fs xs st' cf' -> (joint_score fs pots ev xs st' cf' <= joint_score fs pots ev xs st cf)%R.
Proof. exact C42_map_lemma. Qed.
Print Assumptions C42_map.

(** Further iterations change nothing, at any temperature. *)
Theorem C42_converges :
  forall vgs (g : fgraph R) T (c : bp_ctx R),
  groups_ok vgs -> reachable vgs g -> wf_groups (gr_groups g) -> bp_of g T c ->
  forall a, arrays_of c a ->
  let fs := graph_factors 0%R (gr_groups g) in
  let pots := graph_pots (gr_groups g) (ba_log_potentials a) in
  let ev := read_ev (gr_vars_to_starts g) (ba_evidence a) in
  let lens := map snd (sf_edges fs) in
  let text := text_bp fs pots T 0 ev (read_msgs fs (ba_ftov_msgs a)) in
  acyclic fs -> supported lens ->
  forall n n', length fs <= n <= n' ->
  (forall i, i < n' -> unclipped fs (fac_to_var fs pots T (var_to_fac fs ev (text i)))) ->
  (forall i, i <= n' -> above_floor lens (unnormalised c a 0 i)) ->
  (forall i, i < n' -> in_range fs pots (length (enum_factors (gr_groups g))) T (var_to_fac fs ev (text i))) ->
  ba_ftov_msgs (run_bp c a n' 0%R) = ba_ftov_msgs (run_bp c a n 0%R).
Proof. exact C42_converges_lemma. Qed.
Print Assumptions C42_converges.
Theorem C42_converges_small :
  forall vgs (g : fgraph R) T (c : bp_ctx R),
  groups_ok vgs -> reachable vgs g -> wf_groups (gr_groups g) -> bp_of g T c ->
  forall a, arrays_of c a ->
  let fs := graph_factors 0%R (gr_groups g) in
  let pots := graph_pots (gr_groups g) (ba_log_potentials a) in
  let ev := read_ev (gr_vars_to_starts g) (ba_evidence a) in
  let lens := map snd (sf_edges fs) in
  forall B P D K, moderate fs pots (length (enum_factors (gr_groups g))) ev B P D K ->
  (0 <= T)%R -> supported lens -> above_floor lens (ba_ftov_msgs a) -> acyclic fs ->
  forall P' B' M' N', small fs T pots ev (read_msgs fs (ba_ftov_msgs a)) P' B' M' N' ->
  forall n, length fs <= n -> ba_ftov_msgs (run_bp c a n 0%R) = ba_ftov_msgs (run_bp c a (length fs) 0%R).
Proof. exact C42_converges_small_lemma. Qed.
Print Assumptions C42_converges_small.

(** The same for textbook belief propagation on any list of factors. *)
Theorem C42_textbook :
  forall A (fs : list (sfactor A)) pots ev xs m n,
  acyclic fs -> configs_ok fs -> covered fs -> (forall f, f < length fs -> 0 < arity fs f) ->
  NoDup xs -> incl (sf_edges fs) xs -> (forall x, In x xs -> 0 < snd x) ->
  length fs <= n ->
  (forall i, i < n -> unclipped fs (fac_to_var_max fs pots (var_to_fac fs ev (text_bp fs pots 0 0 ev m i)))) ->
  forall x, In x xs -> exists k : R, forall s, s < snd x ->
    max_marginal fs pots ev xs x s (text_belief fs ev (text_bp fs pots 0 0 ev m n) x s + k)%R.
Proof. exact @C42_text_lemma. Qed.
Print Assumptions C42_textbook.
(** Small inputs are never clipped. *)
Theorem C42_unclipped :
  forall A (fs : list (sfactor A)) pots T ev m P B M N,
  acyclic fs -> configs_ok fs -> covered fs -> (forall f u, f < length fs -> u < arity fs f -> 0 < snd (var_at fs f u)) ->
  (0 <= T)%R -> small fs T pots ev m P B M N ->
  forall i, unclipped fs (fac_to_var fs pots T (var_to_fac fs ev (text_bp fs pots T 0 ev m i))).
Proof. exact @small_lemma. Qed.
Print Assumptions C42_unclipped.

(** The hypotheses hold for a tree with both kinds of factors. *)
Definition tr_msgs_z : list Z := [0; -1; 0; -2; -3; -5; 0; 0; -1; 0; 0; -4; -1; 0; 0; -2]%Z.
Definition tr_a : bp_arrays R := tr_arrays IZR (map IZR tr_msgs_z) (map IZR ex_ev_z).
Definition tr_g : fgraph R := tr_graph IZR.
Definition tr_c (T : R) : bp_ctx R := tr_ctx IZR T.
Definition tr_rfs : list (sfactor R) := graph_factors 0%R (gr_groups tr_g).
Notation tr_pots := (graph_pots (gr_groups tr_g) (ba_log_potentials tr_a)).
Notation tr_ev := (read_ev (gr_vars_to_starts tr_g) (ba_evidence tr_a)).
Lemma tr_given T : groups_ok ex_vgs /\ reachable ex_vgs tr_g /\ wf_groups (gr_groups tr_g) /\ bp_of tr_g T (tr_c T) /\ arrays_of (tr_c T) tr_a.
Proof. split; [exact ex_vgs_ok|]. split; [apply tr_reach|]. split; [apply tr_wf|]. split; [apply tr_bp_of|]. now apply tr_arrays_of. Qed.
Lemma tr_supported : supported (map snd (sf_edges tr_rfs)).
Proof. split; [vm_compute; discriminate|]. intros n Hn. vm_compute in Hn. repeat (destruct Hn as [<-|Hn]; [lia|]). destruct Hn. Qed.
Lemma tr_above : above_floor (map snd (sf_edges tr_rfs)) (ba_ftov_msgs tr_a).
Proof.
  intros e He. right. assert (e < 7) by exact He. unfold neg_inf.
  do 7 (destruct e as [|e]; [eapply Rle_trans; [|apply LemNum.rmaxs_ub; left; reflexivity]; cbn; lra|]). lia.
Qed.
Lemma tr_pots_bounds f k : (-2 <= tr_pots f k <= 4)%R.
Proof.
  unfold graph_pots, read_pots. destruct (f <? _); [|lra]. generalize (sf_first_config (enum_factors (gr_groups tr_g)) f + k). intros i.
  cbn [ba_log_potentials tr_a tr_arrays]. do 8 (destruct i as [|i]; [cbn; lra|]). destruct i; cbn; lra.
Qed.
Lemma tr_ev_bounds x s : (-4 <= tr_ev x s <= 3)%R.
Proof.
  unfold read_ev. generalize (start_of (gr_vars_to_starts tr_g) x + s). intros i. cbn [ba_evidence tr_a tr_arrays].
  do 11 (destruct i as [|i]; [cbn; lra|]). destruct i; cbn; lra.
Qed.
Lemma tr_msgs_bounds f u s : (-5 <= read_msgs tr_rfs (ba_ftov_msgs tr_a) f u s <= 0)%R.
Proof.
  unfold read_msgs. generalize (slot_index tr_rfs f u s). intros i. cbn [ba_ftov_msgs tr_a tr_arrays].
  do 16 (destruct i as [|i]; [cbn; lra|]). destruct i; cbn; lra.
Qed.
Lemma tr_moderate : moderate tr_rfs tr_pots (length (enum_factors (gr_groups tr_g))) tr_ev 10 10 10 2.
Proof.
  split; [|split; [|split; [|split; [|split; [|split]]]]].
  - intros x s _ _. pose proof (tr_ev_bounds x s). lra.
  - intros f k _ _. pose proof (tr_pots_bounds f k). lra.
  - intros x. unfold slots_of. eapply Nat.le_trans; [apply LemRun.filter_length_le|]. vm_compute. lia.
  - intros f Hf. assert (Hf2 : f < 2) by exact Hf. destruct f as [|[|]]; [vm_compute; lia|vm_compute; lia|lia].
  - intros f u s Hf Hu Hs. assert (Hf2 : f < 2) by exact Hf.
    destruct f as [|[|]]; [| |lia]; (destruct u as [|[|]]; [| |exfalso; vm_compute in Hu; lia]);
      (destruct s as [|[|[|]]]; try (exfalso; vm_compute in Hs; lia); vm_compute; discriminate).
  - cbn [INR]. lra.
  - cbn [INR]. lra.
Qed.
Lemma tr_small T : (0 <= T <= 1)%R -> small tr_rfs T tr_pots tr_ev (read_msgs tr_rfs (ba_ftov_msgs tr_a)) 6 7 5 4.
Proof.
  intros HT. split; [lra|]. split; [lia|]. split; [|split; [|split; [|split]]].
  - intros f k k' _ _ _. pose proof (tr_pots_bounds f k). pose proof (tr_pots_bounds f k'). lra.
  - intros x s s' _ _ _. pose proof (tr_ev_bounds x s). pose proof (tr_ev_bounds x s'). lra.
  - intros f u s s' _ _ _ _. pose proof (tr_msgs_bounds f u s). pose proof (tr_msgs_bounds f u s'). lra.
  - intros _ f Hf. assert (Hf3 : f < 3) by exact Hf. destruct f as [|[|[|]]]; [vm_compute; lia..|lia].
  - change (length tr_rfs) with 3. change (length (slots tr_rfs)) with 7.
    assert (L : (ln (INR 4) <= 4)%R).
    { change (INR 4) with (1 + 1 + 1 + 1)%R. rewrite <- (ln_exp 4). left. apply ln_increasing; [lra|]. pose proof (exp_ineq1 4). lra. }
    assert (L0 : (0 <= ln (INR 4))%R) by (rewrite <- ln_1; left; apply ln_increasing; cbn; lra).
    assert (T * ln (INR 4) <= 1 * ln (INR 4))%R by (apply Rmult_le_compat_r; lra). cbn [INR] in *. lra.
Qed.
Lemma tr_arity f : f < length tr_rfs -> 0 < arity tr_rfs f.
Proof. intros Hf. assert (Hf3 : f < 3) by exact Hf. destruct f as [|[|[|]]]; [vm_compute; lia..|lia]. Qed.
Example C42_nonvacuous : forall n, 3 <= n -> exists b d, get_beliefs (tr_c 0) (run_bp (tr_c 0) tr_a n 0%R) = Ok b /\
  dget vg_eqb (VA ex_vg) b = Some d /\ exists (mm : nat -> R) (k : R),
    (forall s, s < 3 -> max_marginal tr_rfs tr_pots tr_ev (all_vars ex_vgs) b4 s (mm s)) /\
    row (VA ex_vg) d 4 = [Fin (mm 0%nat + k)%R; Fin (mm 1%nat + k)%R; Fin (mm 2%nat + k)%R].
Proof.
  intros n Hn. destruct (tr_given 0) as [H1 [H2 [H3 [H4 H5]]]].
  destruct (C42_small ex_vgs tr_g (tr_c 0) H1 H2 H3 H4 tr_a H5 ex_pos (tr_acyclic IZR 0%R) tr_arity 10%R 10%R 10 2 6%R 7%R 5%R 4 tr_moderate (tr_small 0 ltac:(lra)) tr_supported tr_above n Hn)
    as [b [Eb [_ D]]].
  destruct (D (VA ex_vg) (or_introl eq_refl)) as [d [Ed [_ Rd]]]. exists b, d. split; [exact Eb|]. split; [exact Ed|]. exact (Rd 4 b4 eq_refl).
Qed.
Example C42_converges_nonvacuous : forall T n, (0 <= T <= 1)%R -> 3 <= n ->
  ba_ftov_msgs (run_bp (tr_c T) tr_a n 0%R) = ba_ftov_msgs (run_bp (tr_c T) tr_a 3 0%R).
Proof.
  intros T n HT Hn. destruct (tr_given T) as [H1 [H2 [H3 [H4 H5]]]].
  exact (C42_converges_small ex_vgs tr_g T (tr_c T) H1 H2 H3 H4 tr_a H5 10%R 10%R 10 2 tr_moderate (proj1 HT) tr_supported tr_above (tr_acyclic IZR 0%R) 6%R 7%R 5%R 4 (tr_small T HT) n Hn).
Qed.
Example C42_map_nonvacuous : forall n, 3 <= n -> exists b q d, get_beliefs (tr_c 0) (run_bp (tr_c 0) tr_a n 0%R) = Ok b /\
  decode_map_states b = Ok q /\ dget vg_eqb (VA ex_vg) q = Some d /\ exists s, cell (VA ex_vg) d 4 = [s] /\
  exists st cf, joint tr_rfs (all_vars ex_vgs) st cf /\ st b4 = s /\ forall st' cf', joint tr_rfs (all_vars ex_vgs) st' cf' ->
    (joint_score tr_rfs tr_pots tr_ev (all_vars ex_vgs) st' cf' <= joint_score tr_rfs tr_pots tr_ev (all_vars ex_vgs) st cf)%R.
Proof.
  intros n Hn. destruct (tr_given 0) as [H1 [H2 [H3 [H4 H5]]]].
  destruct (small_given ex_vgs tr_g 0%R (tr_c 0) H1 H2 H3 H4 tr_a H5 10%R 10%R 10 2 tr_moderate (Rle_refl 0) tr_supported tr_above (tr_acyclic IZR 0%R) 6%R 7%R 5%R 4 (tr_small 0 ltac:(lra)))
    as [G1 [G2 G3]].
  destruct (C42_map ex_vgs tr_g (tr_c 0) H1 H2 H3 H4 tr_a H5 n ex_pos (tr_acyclic IZR 0%R) tr_arity Hn (fun i _ => eq_ind _ (unclipped tr_rfs) (G1 i) _ (fac_to_var_0 _ _ _)) tr_supported
    (fun i _ => G2 i) (fun i _ => G3 i) ex_not_one) as [b [q [Eb [Eq [_ D]]]]].
  destruct (D (VA ex_vg) (or_introl eq_refl)) as [d [Ed [_ Rd]]]. exists b, q, d. split; [exact Eb|]. split; [exact Eq|]. split; [exact Ed|]. exact (Rd 4 b4 eq_refl).
Qed.
(** The same with rational numbers: the beliefs after three iterations, and the
    max-marginals found by trying every assignment. *)
Definition tr_best (i s : nat) : option Z :=
  let pots := [[1; -2; 3; 0]; [4; -1; 2; 2]]%Z in
  let table (k u v : nat) : option Z :=
    match u, v with
    | 0, 0 => Some (nth 0 (nth k pots []) 0%Z) | 0, 2 => Some (nth 1 (nth k pots []) 0%Z)
    | 1, 1 => Some (nth 2 (nth k pots []) 0%Z) | 1, 2 => Some (nth 3 (nth k pots []) 0%Z)
    | _, _ => None end in
  let scores := flat_map (fun s0 => flat_map (fun s1 => flat_map (fun s2 => flat_map (fun s3 => flat_map (fun s4 =>
      if negb (nth i [s0; s1; s2; s3; s4] 9 =? s) then []
      else match table 0 s0 s4, table 1 s1 s4, s3 =? Nat.max s1 s2 with
           | Some p, Some q, true =>
               [(p + q + nth s0 ex_ev_z 0 + nth (2 + s1) ex_ev_z 0 + nth (4 + s2) ex_ev_z 0 + nth (6 + s3) ex_ev_z 0 + nth (8 + s4) ex_ev_z 0)%Z]
           | _, _, _ => [] end)
    [0; 1; 2]) [0; 1]) [0; 1]) [0; 1]) [0; 1] in
  match scores with [] => None | z :: zs => Some (fold_left Z.max zs z) end.
Example C42_computed :
  get_beliefs (tr_ctx inject_Z 0%Q) (run_bp (tr_ctx inject_Z 0%Q) (tr_arrays inject_Z (map inject_Z tr_msgs_z) (map inject_Z ex_ev_z)) 3 0%Q)
  = Ok [(VA ex_vg, DArr (mkArr [5; 3] [Fin 3; Fin (-1); NInf; Fin (-1); Fin (-4); NInf; Fin (-3); Fin 1; NInf; Fin (-5); Fin 0; NInf; Fin 1; Fin (-3); Fin (-2)]%Q))].
Proof. vm_compute. reflexivity. Qed.
Example C42_brute_force :
  map (fun p => tr_best (fst p) (snd p)) [(0, 0); (0, 1); (1, 0); (1, 1); (2, 0); (2, 1); (3, 0); (3, 1); (4, 0); (4, 1); (4, 2)]
  = map Some [7 + 3; 7 + -1; 11 + -1; 11 + -4; 9 + -3; 9 + 1; 10 + -5; 10 + 0; 9 + 1; 9 + -3; 9 + -2]%Z.
Proof. vm_compute. reflexivity. Qed.
Example C42_textbook_nonvacuous : forall n, 3 <= n -> exists k : R, forall s, s < snd b4 ->
  max_marginal tr_rfs tr_pots tr_ev (all_vars ex_vgs) b4 s
    (text_belief tr_rfs tr_ev (text_bp tr_rfs tr_pots 0 0 tr_ev (read_msgs tr_rfs (ba_ftov_msgs tr_a)) n) b4 s + k)%R.
Proof.
  intros n Hn. destruct (tr_given 0) as [H1 [H2 [H3 [H4 H5]]]].
  destruct (small_given ex_vgs tr_g 0%R (tr_c 0) H1 H2 H3 H4 tr_a H5 10%R 10%R 10 2 tr_moderate (Rle_refl 0) tr_supported tr_above (tr_acyclic IZR 0%R) 6%R 7%R 5%R 4 (tr_small 0 ltac:(lra)))
    as [G1 [_ G3]].
  apply (C42_textbook R tr_rfs tr_pots tr_ev (all_vars ex_vgs) (read_msgs tr_rfs (ba_ftov_msgs tr_a)) n (tr_acyclic IZR 0%R)
    (LemText.graph_configs_ok _ H3) (LemShift.in_range_covered tr_g 0%R H3 tr_a _ (G3 0)) tr_arity (LemFGraph.all_vars_NoDup _ H1)).
  - intros x Hx. vm_compute in Hx. vm_compute. tauto.
  - intros x Hx. vm_compute in Hx. destruct Hx as [<-|[<-|[<-|[<-|[<-|[]]]]]]; cbn; lia.
  - exact Hn.
  - intros i _. rewrite <- fac_to_var_0. apply G1.
  - vm_compute. tauto.
Qed.
