(** * A graph for the examples about underflow: one OR factor. *)
From Verif Require Import NumPy Lists VGroup FGraph BPState BP Rounded SpecVGroup SpecFGraph SpecFactor SpecWiring SpecState SpecBP SpecText SpecRounded SpecStable SpecUnderflow.
From Verif Require Import LemFGraph LemGraph LemNum LemTemp LemRounded LemUnderGraph ExBP.
From Coq Require Import Reals Lra Lia.
Local Open Scope nat_scope.

Definition uo_g : fgraph R := fst (add_factors (AGroup ex_or) (FactorGraph (GsList ex_vgs))).
Definition uo_state : fg_state R :=
  ltac:(let r := eval vm_compute in (compile_fg_state (fun _ => 0%Z) uo_g) in
        match r with Ok ?s => exact s end).
Lemma uo_compiles : compile_fg_state (fun _ => 0%Z) uo_g = Ok uo_state.
Proof. vm_compute. reflexivity. Qed.
Lemma uo_reach : reachable ex_vgs uo_g.
Proof. apply reach_add, reach_new. reflexivity. Qed.
Lemma uo_wf : wf_groups (gr_groups uo_g).
Proof.
  intros t g Hg. change (gr_groups uo_g) with (PT [] [@ex_or R] []) in Hg. destruct t; cbn in Hg; try destruct Hg as [<-|[]]; try destruct Hg.
  split; [reflexivity|]. split; [|discriminate]. intros vs [<-|[]]. split; [simpl; lia|]. intros x [<-|[<-|[<-|[]]]]; reflexivity.
Qed.
Definition uo_bs : bp_state R :=
  {| bs_log_potentials := {| c_state := (5, uo_state); c_value := st_log_potentials uo_state |};
     bs_ftov_msgs := {| c_state := (5, uo_state); c_value := repeat 0%R 6 |};
     bs_evidence := {| c_state := (5, uo_state); c_value := repeat 0%R 11 |} |}.
Definition uo_c (T : R) : bp_ctx R :=
  {| bc_state := uo_bs; bc_temperature := T; bc_edges_num_states := [2; 2; 2];
     bc_max_msg_size := 2; bc_var_states_for_edges := [0; 1; 2; 3; 4; 5]%Z |}.
Lemma uo_bp_of T : bp_of uo_g T (uo_c T).
Proof. exists (fun _ => 0%Z), uo_bs. split; [exact uo_compiles|reflexivity]. Qed.
(** Both parents are off with strength [U]. *)
Definition uo_a (U : R) : bp_arrays R :=
  {| ba_log_potentials := []; ba_ftov_msgs := repeat 0%R 6; ba_evidence := [0; - U; 0; - U; 0; 0; 0; 0; 0; 0; 0]%R |}.
Lemma uo_arrays_of T U : arrays_of (uo_c T) (uo_a U).
Proof. repeat split. Qed.
Definition uo_fs : list (sfactor R) := graph_factors 0%R (gr_groups uo_g).
Lemma uo_supported : supported (map snd (sf_edges uo_fs)).
Proof. split; [vm_compute; discriminate|]. intros n Hn. vm_compute in Hn. repeat (destruct Hn as [<-|Hn]; [lia|]). destruct Hn. Qed.
Lemma uo_above m : above_floor (map snd (sf_edges uo_fs)) m.
Proof. intros e He. left. change (e < 3) in He. destruct e as [|[|[|e]]]; try reflexivity. lia. Qed.

(** Exact operations, except for the exponential. *)
Section Id.
  Context (ex : R -> R) (U : R).
  Local Open Scope R_scope.
  Let rnd := fun x : R => x.
  Lemma id_rounding : is_rounding rnd. Proof. repeat split; auto. Qed.
  Let N := RoundNum rnd ex ln.
  Let c := uo_c 1.
  Let a := uo_a U.
  Lemma uo_start : ba_ftov_msgs (run_rounded rnd ex ln c a 0 0) = repeat 0 6.
  Proof.
    rewrite (run_rounded_before rnd ex ln). change (bc_edges_num_states c) with [2; 2; 2]%nat. change (bc_max_msg_size c) with (nat_max [2; 2; 2])%nat.
    apply (normalize_rounded_idem rnd ex ln).
    - exact uo_supported.
    - reflexivity.
    - intros e He. cbn [length] in He. assert (E : segment [2; 2; 2]%nat (repeat 0 6) e = [0; 0]) by (destruct e as [|[|[|e]]]; [reflexivity..|lia]). rewrite E.
      split; [|intros x [<-|[<-|[]]]; lra]. cbn. apply Rmax_left. lra.
    - change (before_normalising rnd ex ln c a 0 0) with (repeat 0 6). apply Forall_forall. intros x Hx. apply repeat_spec in Hx. subst x. split; [lra|reflexivity].
  Qed.
  Definition uo_new : list R := new_rounded rnd ex ln c a (repeat 0 6).
  Lemma uo_new_length : length uo_new = 6%nat.
  Proof. unfold uo_new. now rewrite (new_rounded_length rnd ex ln). Qed.
  Lemma uo_before i : (i < 6)%nat -> nth i (before_normalising rnd ex ln c a 0 1) 0 = nth i uo_new 0.
  Proof.
    intros Hi. cbn [before_normalising]. rewrite uo_start. fold uo_new. rewrite (nth_map2 _ _ _ _ _ 0 0) by (rewrite ?repeat_length, ?uo_new_length; lia).
    rewrite nth_repeat. unfold rnd. lra.
  Qed.
  Lemma uo_run s : (s < 2)%nat -> exists mx, nth 4 uo_new 0 <= mx /\ nth 5 uo_new 0 <= mx /\ (mx = nth 4 uo_new 0 \/ mx = nth 5 uo_new 0) /\
    read_msgs uo_fs (ba_ftov_msgs (run_rounded rnd ex ln c a 1 0)) 0%nat 2%nat s = Rmax (-1000) (nth (4 + s) uo_new 0 - mx).
  Proof.
    intros Hs. set (B := before_normalising rnd ex ln c a 0 1).
    assert (LB : length B = 6%nat) by (unfold B; apply (before_length rnd ex ln); reflexivity).
    exists (Rmax (nth 4 uo_new 0) (nth 5 uo_new 0)). split; [apply Rmax_l|]. split; [apply Rmax_r|]. split; [unfold Rmax; destruct (Rle_dec _ _); auto|].
    rewrite (run_rounded_before rnd ex ln). fold B. unfold read_msgs.
    change (slot_index uo_fs 0%nat 2%nat s) with (off [2; 2; 2] 2 + s)%nat. change (bc_edges_num_states c) with [2; 2; 2]%nat. change (bc_max_msg_size c) with (nat_max [2; 2; 2])%nat.
    rewrite (nth_normalize_rounded rnd ex ln); [|now rewrite LB|cbn; lia|exact Hs]. unfold rnd at 1. f_equal. f_equal.
    - change (off [2; 2; 2] 2)%nat with 4%nat. apply uo_before. lia.
    - destruct (LemNorm.C30_correct_lemma B [2; 2; 2]%nat (nat_max [2; 2; 2])%nat) as [_ C]; [now rewrite LB|apply LemNorm.supported_bounds, uo_supported|rewrite LB; vm_compute; discriminate|].
      rewrite (proj1 (C 2%nat ltac:(cbn; lia)) (uo_above B 2%nat ltac:(cbn; lia))).
      assert (ES : segment [2; 2; 2]%nat B 2 = [nth 4 B 0; nth 5 B 0]).
      { destruct B as [|x0 [|x1 [|x2 [|x3 [|x4 [|x5 [|]]]]]]]; try discriminate LB. reflexivity. }
      rewrite ES. unfold B. rewrite !uo_before by lia. apply LemNum.rmaxs_eq.
      + unfold Rmax. destruct (Rle_dec _ _); [right; left; reflexivity|left; reflexivity].
      + intros x [<-|[<-|[]]]; [apply Rmax_l|apply Rmax_r].
  Qed.
  Definition uo_vt : list R := @pass_var_to_fac_messages R N (repeat 0 6) (ba_evidence a) (bc_var_states_for_edges c).
  Lemma uo_lean u : (u < 2)%nat -> lean TOr (read_msgs uo_fs uo_vt) 0 u = - U.
  Proof.
    intros Hu. unfold lean. destruct u as [|[|u]]; [| |lia]; cbv -[Rplus Rminus Rmult Ropp IZR Rdiv Rinv]; lra.
  Qed.
End Id.

(** However accurate the exponential, a message can be wrong by 500. *)
Lemma C67_run_lemma : forall e, (0 < e)%R -> exists ex U,
  (forall x, (Rabs (ex x - exp x) <= e)%R) /\
  read_msgs uo_fs (ba_ftov_msgs (run_rounded (fun x => x) ex ln (uo_c 1) (uo_a U) 1 0%R)) 0 2 1 = 0%R /\
  (read_msgs uo_fs (ba_ftov_msgs (run_bp (uo_c 1) (uo_a U) 1 0%R)) 0%nat 2%nat 1%nat <= -500)%R.
Proof.
  intros e He. set (U := Rmax 600 (- ln e)). pose proof (Rmax_l 600 (- ln e)) as U1. pose proof (Rmax_r 600 (- ln e)) as U2. fold U in U1, U2.
  set (ex := fun x => if Rle_dec x (- U) then 0%R else exp x). exists ex, U. split; [|split].
  - intros x. unfold ex. destruct (Rle_dec x (- U)) as [H|H].
    + unfold Rminus. rewrite Rplus_0_l, Rabs_Ropp, Rabs_right by (left; apply exp_pos). rewrite <- (exp_ln e He). apply LemTemp.exp_le. lra.
    + rewrite Rminus_diag_eq, Rabs_R0 by reflexivity. lra.
  - assert (HU : underflowing (fun x => x) ex ln U 1).
    { split; [exact id_rounding|]. split; [lra|]. do 4 (split; [reflexivity|]). split; [|split; [|exact ln_1]].
      - intros x Hx. unfold ex. destruct (Rle_dec x (- U)); [reflexivity|contradiction].
      - unfold ex. destruct (Rle_dec 0 (- U)); [lra|apply exp_0]. }
    assert (Z : forall s, s < 2 -> nth (4 + s) (uo_new ex U) 0%R = 0%R).
    { intros s Hs. refine (C67_child_rounded_lemma (fun _ => 0%Z) uo_g uo_state [] (uo_vt ex U) uo_wf uo_compiles eq_refl 0 ltac:(vm_compute; lia) _ _ _ U 1 HU _ s Hs).
      intros u Hu. change (u < 2) in Hu. change (logical_kind (gr_groups uo_g) 0) with TOr. pose proof (uo_lean ex U u Hu) as L. unfold uo_fs in L. rewrite L. lra. }
    destruct (uo_run ex U 1 ltac:(lia)) as [mx [_ [_ [M E]]]]. rewrite (Z 1 ltac:(lia)) in E. pose proof (Z 0 ltac:(lia)) as Z0. pose proof (Z 1 ltac:(lia)) as Z1. cbn [Nat.add] in Z0, Z1.
    rewrite Z0, Z1 in M. rewrite E. assert (E0 : mx = 0%R) by (destruct M; assumption). rewrite E0. rewrite Rmax_right; lra.
  - change (run_bp (uo_c 1) (uo_a U) 1 0%R) with (run_rounded (fun x => x) exp ln (uo_c 1) (uo_a U) 1 0%R).
    assert (Z : (nth 5 (uo_new exp U) 0 - nth 4 (uo_new exp U) 0 <= 1 * (INR 2 * ln 2) - U)%R).
    { refine (C67_child_exact_lemma (fun _ => 0%Z) uo_g uo_state [] (uo_vt exp U) uo_wf uo_compiles eq_refl 0 ltac:(vm_compute; lia) 1%R U ltac:(lra) ltac:(lra) _).
      intros u Hu. change (u < 2) in Hu. change (logical_kind (gr_groups uo_g) 0) with TOr. pose proof (uo_lean exp U u Hu) as L. unfold uo_fs in L. rewrite L. lra. }
    destruct (uo_run exp U 1 ltac:(lia)) as [mx [M4 [_ [_ E]]]]. rewrite E. change (4 + 1) with 5.
    assert (ln 2 < 1)%R by (rewrite <- (ln_exp 1); apply ln_increasing; [lra|apply exp_ineq1; lra]).
    cbn [INR] in Z. apply Rmax_lub; lra.
Qed.
Lemma C67_close_refuted_lemma : ~ (exists e, (0 < e)%R /\
  forall ex, (forall x, (Rabs (ex x - exp x) <= e)%R) ->
  forall vgs (g : fgraph R) (c : bp_ctx R),
  groups_ok vgs -> reachable vgs g -> wf_groups (gr_groups g) -> bp_of g 1%R c ->
  let fs := graph_factors 0%R (gr_groups g) in
  supported (map snd (sf_edges fs)) ->
  forall a, arrays_of c a ->
  msgs_near fs (read_msgs fs (ba_ftov_msgs (run_rounded (fun x => x) ex ln c a 1 0%R)))
               (read_msgs fs (ba_ftov_msgs (run_bp c a 1 0%R))) 499).
Proof.
  intros [e [He H]]. destruct (C67_run_lemma e He) as [ex [U [H1 [H2 H3]]]].
  specialize (H ex H1 ex_vgs uo_g (uo_c 1) (proj1 (ex_given 0)) uo_reach uo_wf (uo_bp_of 1) uo_supported (uo_a U) (uo_arrays_of 1 U) 0 2 1 ltac:(vm_compute; lia) ltac:(vm_compute; lia) ltac:(vm_compute; lia)).
  fold uo_fs in H. rewrite H2 in H. revert H. rewrite Rabs_right; lra.
Qed.
