(** * Property C67: underflow makes OR and AND factors forget strong messages. *)
From Verif Require Import NumPy Lists VGroup FGraph BPState BP Rounded SpecVGroup SpecFGraph SpecFactor SpecWiring SpecState SpecBP SpecText SpecRounded SpecStable SpecUnderflow.
From Verif Require Import LemUnderGraph ExBP ExUnder PropsBeliefs.
From Coq Require Import Reals Lra Lia.
Local Open Scope nat_scope.

(** ** C67 *)
(** Exact arithmetic. All parents of an OR factor are off (all parents of an AND factor are
    on) with strength at least [b]: so is the message to the child, up to [T ln 2] per
    parent. *)
Theorem C67_child_exact :
  forall junk (g : fgraph R) st lp vt,
  wf_groups (gr_groups g) -> compile_fg_state junk g = Ok st ->
  let fs := graph_factors 0%R (gr_groups g) in
  let ne := length (enum_factors (gr_groups g)) in
  length vt = total_states fs ->
  forall f, ne <= f < length fs ->
  let t := logical_kind (gr_groups g) f in
  forall T b, (0 < T)%R -> (0 <= b)%R ->
  (forall u, u < parents fs f -> (lean t (read_msgs fs vt) f u <= - b)%R) ->
  (lean t (read_msgs fs (pass_fac_to_var_messages st T lp vt)) f (parents fs f) <= T * (INR (parents fs f) * ln 2) - b)%R.
Proof. exact C67_child_exact_lemma. Qed.
Print Assumptions C67_child_exact.

(** Rounded arithmetic whose exponential underflows below [-U]: once the strength is
    [U T], the message to the child is flat. *)
Theorem C67_child_rounded :
  forall junk (g : fgraph R) st lp vt,
  wf_groups (gr_groups g) -> compile_fg_state junk g = Ok st ->
  let fs := graph_factors 0%R (gr_groups g) in
  let ne := length (enum_factors (gr_groups g)) in
  length vt = total_states fs ->
  forall f, ne <= f < length fs ->
  let t := logical_kind (gr_groups g) f in
  forall rnd ex lg U T, underflowing rnd ex lg U T ->
  (forall u, u < parents fs f -> (lean t (read_msgs fs vt) f u <= - (U * T))%R) ->
  forall s, s < 2 -> read_msgs fs (@pass_fac_to_var_messages R (RoundNum rnd ex lg) st T lp vt) f (parents fs f) s = 0%R.
Proof. exact C67_child_rounded_lemma. Qed.
Print Assumptions C67_child_rounded.

(** The only parent that can explain its child. Exact arithmetic: the other parents of an
    OR factor are off and its child is on, with strength [b]; the message to the parent
    says on with that strength, up to [T ln 2] per other parent. *)
Theorem C67_parent_exact :
  forall junk (g : fgraph R) st lp vt,
  wf_groups (gr_groups g) -> compile_fg_state junk g = Ok st ->
  let fs := graph_factors 0%R (gr_groups g) in
  let ne := length (enum_factors (gr_groups g)) in
  length vt = total_states fs ->
  forall f, ne <= f < length fs ->
  let t := logical_kind (gr_groups g) f in
  forall T b, (0 < T)%R -> (0 <= b)%R -> forall u, u < parents fs f ->
  (forall j, j < parents fs f -> j <> u -> (lean t (read_msgs fs vt) f j <= - b)%R) ->
  (b <= lean t (read_msgs fs vt) f (parents fs f))%R ->
  (b - T * (INR (parents fs f - 1) * ln 2) <= lean t (read_msgs fs (pass_fac_to_var_messages st T lp vt)) f u)%R.
Proof. exact C67_parent_exact_lemma. Qed.
Print Assumptions C67_parent_exact.

(** Rounded arithmetic: the message says on with strength [T ln 2], however strong the
    child and the other parents are. *)
Theorem C67_parent_rounded :
  forall junk (g : fgraph R) st lp vt,
  wf_groups (gr_groups g) -> compile_fg_state junk g = Ok st ->
  let fs := graph_factors 0%R (gr_groups g) in
  let ne := length (enum_factors (gr_groups g)) in
  length vt = total_states fs ->
  forall f, ne <= f < length fs ->
  let t := logical_kind (gr_groups g) f in
  forall rnd ex lg U T, underflowing rnd ex lg U T ->
  forall u, u < parents fs f -> 2 <= parents fs f ->
  (forall j, j < parents fs f -> j <> u -> (lean t (read_msgs fs vt) f j <= - (U * T))%R) ->
  (U * T <= lean t (read_msgs fs vt) f (parents fs f))%R ->
  lean t (read_msgs fs (@pass_fac_to_var_messages R (RoundNum rnd ex lg) st T lp vt)) f u = rnd (rnd (- T) * lg (rnd (1 / 2)))%R.
Proof. exact C67_parent_rounded_lemma. Qed.
Print Assumptions C67_parent_rounded.

(** So C51 has no counterpart at positive temperatures: however accurate the exponential,
    all other operations being exact, one iteration can be wrong by 499. *)
Theorem C67_close_refuted : ~ (exists e, (0 < e)%R /\
  forall ex, (forall x, (Rabs (ex x - exp x) <= e)%R) ->
  forall vgs (g : fgraph R) (c : bp_ctx R),
  groups_ok vgs -> reachable vgs g -> wf_groups (gr_groups g) -> bp_of g 1%R c ->
  let fs := graph_factors 0%R (gr_groups g) in
  supported (map snd (sf_edges fs)) ->
  forall a, arrays_of c a ->
  msgs_near fs (read_msgs fs (ba_ftov_msgs (run_rounded (fun x => x) ex ln c a 1 0%R)))
               (read_msgs fs (ba_ftov_msgs (run_bp c a 1 0%R))) 499).
Proof. exact C67_close_refuted_lemma. Qed.
Print Assumptions C67_close_refuted.

(** ** Examples *)
(** Rounding down to multiples of 1/1024, exponentials up to -200 taken as 0. *)
Definition un_ex (x : R) : R := if Rle_dec x (-200) then 0%R else exp x.
Lemma un_under : underflowing (floor_to 1024) un_ex ln 200 1.
Proof.
  assert (H : forall z, (-100000 <= z <= 100000)%Z -> floor_to 1024 (IZR z) = IZR z) by apply (LemRounded.floor_to_rounding 1024 ltac:(lia)).
  split; [apply LemRounded.floor_to_rounding; lia|]. split; [lra|]. unfold representable.
  split; [apply (H 200%Z); lia|]. split; [rewrite <- opp_IZR; apply (H (-200)%Z); lia|].
  split; [rewrite Rmult_1_r; apply (H 200%Z); lia|]. split; [rewrite Rmult_1_r, <- opp_IZR; apply (H (-200)%Z); lia|].
  split; [|split; [|exact ln_1]]; [intros x Hx|]; unfold un_ex; destruct (Rle_dec _ _); try lra. apply exp_0.
Qed.
(** Both parents off with strength 200: a flat message to the child, instead of about
    -198.6. *)
Example C67_child_nonvacuous :
  let vt := [0; -200; 0; -200; 0; 0]%R in
  read_msgs uo_fs (@pass_fac_to_var_messages R (RoundNum (floor_to 1024) un_ex ln) uo_state 1%R [] vt) 0 2 1 = 0%R /\
  (lean TOr (read_msgs uo_fs (pass_fac_to_var_messages uo_state 1%R [] vt)) 0%nat 2%nat <= 1 * (INR 2 * ln 2) - 200)%R.
Proof.
  assert (H : forall u, u < 2 -> (lean TOr (read_msgs uo_fs [0; -200; 0; -200; 0; 0]%R) 0%nat u <= -200)%R).
  { intros u Hu. unfold lean. destruct u as [|[|u]]; [| |lia]; cbv -[Rplus Rminus Rle Ropp IZR]; lra. }
  split.
  - refine (C67_child_rounded (fun _ => 0%Z) uo_g uo_state [] [0; -200; 0; -200; 0; 0]%R uo_wf uo_compiles eq_refl 0 ltac:(vm_compute; lia) _ _ _ 200 1 un_under _ 1 ltac:(lia)).
    intros u Hu. eapply Rle_trans; [apply (H u Hu)|lra].
  - refine (C67_child_exact (fun _ => 0%Z) uo_g uo_state [] [0; -200; 0; -200; 0; 0]%R uo_wf uo_compiles eq_refl 0 ltac:(vm_compute; lia) 1%R 200%R ltac:(lra) ltac:(lra) _).
    intros u Hu. eapply Rle_trans; [apply (H u Hu)|lra].
Qed.
(** The second parent off and the child on with strength 200: the first parent is on with
    strength at least 199, the code says about 0.69. *)
Example C67_parent_nonvacuous :
  let vt := [0; 0; 0; -200; 0; 200]%R in
  lean TOr (read_msgs uo_fs (@pass_fac_to_var_messages R (RoundNum (fun x => x) un_ex ln) uo_state 1%R [] vt)) 0 0 = ln 2 /\
  (199 <= lean TOr (read_msgs uo_fs (pass_fac_to_var_messages uo_state 1%R [] vt)) 0%nat 0%nat)%R.
Proof.
  assert (H : (lean TOr (read_msgs uo_fs [0; 0; 0; -200; 0; 200]%R) 0%nat 1%nat <= -200)%R) by (cbv -[Rplus Rminus Rle Ropp IZR]; lra).
  assert (H2 : (200 <= lean TOr (read_msgs uo_fs [0; 0; 0; -200; 0; 200]%R) 0%nat 2%nat)%R) by (cbv -[Rplus Rminus Rle Ropp IZR]; lra).
  assert (Hj : forall j, j < 2 -> j <> 0 -> j = 1) by lia.
  assert (U : underflowing (fun x => x) un_ex ln 200 1).
  { split; [exact id_rounding|]. split; [lra|]. do 4 (split; [reflexivity|]). apply un_under. }
  split.
  - replace (ln 2) with (- (1) * ln (1 / 2))%R by (unfold Rdiv; rewrite Rmult_1_l, ln_Rinv by lra; lra).
    refine (C67_parent_rounded (fun _ => 0%Z) uo_g uo_state [] [0; 0; 0; -200; 0; 200]%R uo_wf uo_compiles eq_refl 0 ltac:(vm_compute; lia) _ _ _ 200 1 U 0 ltac:(vm_compute; lia) ltac:(vm_compute; lia) _ _).
    + intros j Hj1 Hj2. rewrite (Hj j Hj1 Hj2). eapply Rle_trans; [exact H|lra].
    + eapply Rle_trans; [|exact H2]. lra.
  - eapply Rle_trans; [|refine (C67_parent_exact (fun _ => 0%Z) uo_g uo_state [] [0; 0; 0; -200; 0; 200]%R uo_wf uo_compiles eq_refl 0 ltac:(vm_compute; lia) 1%R 200%R ltac:(lra) ltac:(lra) 0 ltac:(vm_compute; lia) _ H2)].
    + assert (ln 2 < 1)%R by (rewrite <- (ln_exp 1); apply ln_increasing; [lra|apply exp_ineq1; lra]).
      change (parents (graph_factors 0%R (gr_groups uo_g)) 0 - 1) with 1. cbn [INR]. lra.
    + intros j Hj1 Hj2. rewrite (Hj j Hj1 Hj2). exact H.
Qed.
(** The inputs of the refutation. *)
Example C67_close_inputs : forall U,
  groups_ok ex_vgs /\ reachable ex_vgs uo_g /\ wf_groups (gr_groups uo_g) /\ bp_of uo_g 1%R (uo_c 1) /\
  supported (map snd (sf_edges (graph_factors 0%R (gr_groups uo_g)))) /\ arrays_of (uo_c 1) (uo_a U).
Proof.
  intros U. split; [exact (proj1 (ex_given 0))|]. split; [exact uo_reach|]. split; [exact uo_wf|]. split; [exact (uo_bp_of 1)|]. split; [exact uo_supported|]. apply uo_arrays_of.
Qed.
