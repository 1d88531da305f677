(** * Property C48: small changes of the inputs make small changes of the messages. *)
From Verif Require Import NumPy Lists VGroup FGraph BPState BP SpecVGroup SpecFGraph SpecFactor SpecWiring SpecState SpecBP SpecText SpecBeliefs SpecStable.
From Verif Require Import LemRun LemTransfer LemBeliefs LemStable ExBP PropsRun PropsBeliefs PropsShift.
From Coq Require Import Reals Lra Lia QArith Qreals.
Local Close Scope Q_scope.
Local Close Scope R_scope.
Local Open Scope nat_scope.

(** ** C48 *)
(** Two runs on the same graph. Initial messages, evidence and potentials differ by at most
    [m], [e] and [p], up to a constant per message, variable and factor. *)
Theorem C48_messages :
  forall vgs (g : fgraph R) T (c : bp_ctx R),
  groups_ok vgs -> reachable vgs g -> wf_groups (gr_groups g) -> bp_of g T c ->
  forall a a', arrays_of c a -> arrays_of c a' ->
  let fs := graph_factors 0%R (gr_groups g) in
  let pots b := graph_pots (gr_groups g) (ba_log_potentials b) in
  let lens := map snd (sf_edges fs) in
  let evs b := read_ev (gr_vars_to_starts g) (ba_evidence b) in
  let msgs b := read_msgs fs (ba_ftov_msgs b) in
  forall D K d m e p, degrees fs D K -> (0 <= T)%R -> (0 <= d <= 1)%R -> (0 <= m)%R -> (0 <= e)%R -> (0 <= p)%R ->
  msgs_spread fs (msgs a) (msgs a') m -> ev_spread fs (evs a) (evs a') e -> pots_spread fs (pots a) (pots a') p ->
  supported lens -> forall n,
  (forall b, b = a \/ b = a' -> forall i,
     (i <= n -> above_floor lens (unnormalised c b d i)) /\
     (i < n -> in_range fs (pots b) (length (enum_factors (gr_groups g))) T
        (var_to_fac fs (evs b) (text_bp fs (pots b) T d (evs b) (msgs b) i)))) ->
  msgs_near fs (msgs (run_bp c a n d)) (msgs (run_bp c a' n d)) (drift D K d m e p n).
Proof. exact C48_lemma. Qed.
Print Assumptions C48_messages.

(** With hypotheses about the inputs only. *)
Theorem C48_bounded :
  forall vgs (g : fgraph R) T (c : bp_ctx R),
  groups_ok vgs -> reachable vgs g -> wf_groups (gr_groups g) -> bp_of g T c ->
  forall a a', arrays_of c a -> arrays_of c a' ->
  let fs := graph_factors 0%R (gr_groups g) in
  let pots b := graph_pots (gr_groups g) (ba_log_potentials b) in
  let lens := map snd (sf_edges fs) in
  let ne := length (enum_factors (gr_groups g)) in
  let evs b := read_ev (gr_vars_to_starts g) (ba_evidence b) in
  let msgs b := read_msgs fs (ba_ftov_msgs b) in
  forall D K d m e p, degrees fs D K -> (0 <= T)%R -> (0 <= d <= 1)%R -> (0 <= m)%R -> (0 <= e)%R -> (0 <= p)%R ->
  msgs_spread fs (msgs a) (msgs a') m -> ev_spread fs (evs a) (evs a') e -> pots_spread fs (pots a) (pots a') p ->
  forall B P B' P' D1 K1,
  moderate fs (pots a) ne (evs a) B P D1 K1 -> moderate fs (pots a') ne (evs a') B' P' D1 K1 ->
  supported lens -> above_floor lens (ba_ftov_msgs a) -> above_floor lens (ba_ftov_msgs a') ->
  forall n, msgs_near fs (msgs (run_bp c a n d)) (msgs (run_bp c a' n d)) (drift D K d m e p n).
Proof. exact C48_bounded_messages. Qed.
Print Assumptions C48_bounded.

(** A variable whose best belief in one run leads by more than the drift of beliefs is
    decoded to the same state in both runs. *)
Theorem C48_decode :
  forall vgs (g : fgraph R) T (c : bp_ctx R),
  groups_ok vgs -> reachable vgs g -> wf_groups (gr_groups g) -> bp_of g T c ->
  forall a a', arrays_of c a -> arrays_of c a' ->
  let fs := graph_factors 0%R (gr_groups g) in
  let pots b := graph_pots (gr_groups g) (ba_log_potentials b) in
  let lens := map snd (sf_edges fs) in
  let ne := length (enum_factors (gr_groups g)) in
  let evs b := read_ev (gr_vars_to_starts g) (ba_evidence b) in
  let msgs b := read_msgs fs (ba_ftov_msgs b) in
  forall D K d m e p, degrees fs D K -> (0 <= T)%R -> (0 <= d <= 1)%R -> (0 <= m)%R -> (0 <= e)%R -> (0 <= p)%R ->
  msgs_spread fs (msgs a) (msgs a') m -> (forall x, In x (all_vars vgs) -> spread (snd x) (evs a x) (evs a' x) e) ->
  pots_spread fs (pots a) (pots a') p ->
  forall B P B' P' D1 K1,
  moderate fs (pots a) ne (evs a) B P D1 K1 -> moderate fs (pots a') ne (evs a') B' P' D1 K1 ->
  supported lens -> above_floor lens (ba_ftov_msgs a) -> above_floor lens (ba_ftov_msgs a') ->
  (forall gr n, In gr vgs -> In n (vg_num_states gr) -> 0 < n) -> (forall gr, In gr vgs -> one_state gr = false) ->
  forall n, exists r q r' q',
    get_beliefs c (run_bp c a n d) = Ok r /\ decode_map_states r = Ok q /\
    get_beliefs c (run_bp c a' n d) = Ok r' /\ decode_map_states r' = Ok q' /\
  forall gr, In gr vgs -> exists b y y', dget vg_eqb gr r = Some b /\ dget vg_eqb gr q = Some y /\ dget vg_eqb gr q' = Some y' /\
    forall i x s bs, nth_error (vg_variables gr) i = Some x -> s < snd x -> nth_error (row gr b i) s = Some (Fin bs) ->
    (forall t bt, t < snd x -> t <> s -> nth_error (row gr b i) t = Some (Fin bt) ->
       (bt + (e + INR D * drift D K d m e p n) < bs)%R) ->
    cell gr y i = [s] /\ cell gr y' i = [s].
Proof. exact C48_bounded_decode. Qed.
Print Assumptions C48_decode.

(** Constants added to initial messages, evidence and potentials, one per message, variable
    and factor, do not change the messages at all. *)
Theorem C48_constants :
  forall vgs (g : fgraph R) T (c : bp_ctx R),
  groups_ok vgs -> reachable vgs g -> wf_groups (gr_groups g) -> bp_of g T c ->
  forall a a', arrays_of c a -> arrays_of c a' ->
  let fs := graph_factors 0%R (gr_groups g) in
  let pots b := graph_pots (gr_groups g) (ba_log_potentials b) in
  let lens := map snd (sf_edges fs) in
  let ne := length (enum_factors (gr_groups g)) in
  let evs b := read_ev (gr_vars_to_starts g) (ba_evidence b) in
  let msgs b := read_msgs fs (ba_ftov_msgs b) in
  forall (km : nat -> nat -> R) (ke : variable -> R) (kp : nat -> R) d n,
  (0 <= T)%R -> (0 <= d <= 1)%R -> supported lens ->
  (forall f u s, f < length fs -> u < arity fs f -> s < snd (var_at fs f u) -> msgs a' f u s = (msgs a f u s + km f u)%R) ->
  (forall x s, In x (all_vars vgs) -> s < snd x -> evs a' x s = (evs a x s + ke x)%R) ->
  (forall f k, f < ne -> k < length (sf_configs (factor_at fs f)) -> pots a' f k = (pots a f k + kp f)%R) ->
  (forall b, b = a \/ b = a' -> forall i,
     (i <= n -> above_floor lens (unnormalised c b d i)) /\
     (i < n -> in_range fs (pots b) ne T (var_to_fac fs (evs b) (text_bp fs (pots b) T d (evs b) (msgs b) i)))) ->
  ba_ftov_msgs (run_bp c a' n d) = ba_ftov_msgs (run_bp c a n d).
Proof. exact C48_constants_lemma. Qed.
Print Assumptions C48_constants.

(** The example graph from its fixed point, with 1/100 added to one entry of the evidence. *)
Definition ex_fixed : bp_arrays R := ex_arrays IZR (map IZR ex_fix_z) (map IZR ex_ev_z).
Definition ex_near : bp_arrays R := ex_arrays IZR (map IZR ex_fix_z) [3 + 1 / 100; 0; -1; 2; 0; 1; -4; 0; 2; -2; 1]%R.
Lemma ex_degrees : degrees ex_rfs 3 3.
Proof.
  split.
  - intros x. unfold slots_of. assert (E : slots ex_rfs = [(0,0);(0,1);(1,0);(1,1);(2,0);(2,1);(2,2);(3,0);(3,1);(3,2)]) by reflexivity. rewrite E.
    cbn [filter fst snd]. change (var_at ex_rfs 0 0) with b0. change (var_at ex_rfs 0 1) with b4. change (var_at ex_rfs 1 0) with b1. change (var_at ex_rfs 1 1) with b4.
    change (var_at ex_rfs 2 0) with b0. change (var_at ex_rfs 2 1) with b1. change (var_at ex_rfs 2 2) with b2.
    change (var_at ex_rfs 3 0) with b1. change (var_at ex_rfs 3 1) with b2. change (var_at ex_rfs 3 2) with b3.
    destruct (var_eqb b0 x) eqn:E0; [apply LemFGraph.var_eqb_eq in E0; subst x; vm_compute; lia|].
    destruct (var_eqb b1 x) eqn:E1; [apply LemFGraph.var_eqb_eq in E1; subst x; vm_compute; lia|].
    destruct (var_eqb b2 x) eqn:E2; [apply LemFGraph.var_eqb_eq in E2; subst x; vm_compute; lia|].
    destruct (var_eqb b3 x) eqn:E3; [apply LemFGraph.var_eqb_eq in E3; subst x; vm_compute; lia|].
    destruct (var_eqb b4 x) eqn:E4; [apply LemFGraph.var_eqb_eq in E4; subst x; vm_compute; lia|].
    cbn [length]. lia.
  - intros f Hf. assert (H : f < 4) by exact Hf. do 4 (destruct f as [|f]; [vm_compute; lia|]). lia.
Qed.
Lemma ex_near_spread x : spread (snd x) (read_ev (gr_vars_to_starts ex_g) (ba_evidence ex_fixed) x) (read_ev (gr_vars_to_starts ex_g) (ba_evidence ex_near) x) (1 / 100).
Proof.
  exists (- (1 / 100))%R. intros s _. unfold read_ev. generalize (start_of (gr_vars_to_starts ex_g) x + s). intros i.
  do 11 (destruct i as [|i]; [cbn; lra|]). destruct i; cbn; lra.
Qed.
Lemma ex_near_moderate : moderate ex_rfs (graph_pots (gr_groups ex_g) (ba_log_potentials ex_near)) (length (enum_factors (gr_groups ex_g)))
  (read_ev (gr_vars_to_starts ex_g) (ba_evidence ex_near)) 10 10 10 2.
Proof.
  destruct ex_moderate as [_ [M2 [M3 [M4 [M5 [M6 M7]]]]]]. split; [|repeat split; assumption].
  intros x s _ _. unfold read_ev. generalize (start_of (gr_vars_to_starts ex_g) x + s). intros i.
  do 11 (destruct i as [|i]; [cbn; lra|]); destruct i; cbn; lra.
Qed.
Lemma ex_fixed_above : above_floor (map snd (sf_edges ex_rfs)) (map IZR ex_fix_z).
Proof.
  intros e He. right. assert (e < 10) by exact He. unfold neg_inf.
  do 10 (destruct e as [|e]; [eapply Rle_trans; [|apply LemNum.rmaxs_ub; left; reflexivity]; cbn; lra|]). lia.
Qed.
(** After two iterations at damping 1/2 no message moved by more than 7/200. *)
Example C48_nonvacuous : forall T, (0 <= T)%R ->
  msgs_near ex_rfs (read_msgs ex_rfs (ba_ftov_msgs (run_bp (ex_c T) ex_fixed 2 (1 / 2)%R))) (read_msgs ex_rfs (ba_ftov_msgs (run_bp (ex_c T) ex_near 2 (1 / 2)%R))) (7 / 200).
Proof.
  intros T HT. destruct (ex_given T) as [H1 [H2 [H3 [H4 _]]]].
  assert (E : drift 3 3 (1 / 2) 0 (1 / 100) 0 2 = (7 / 200)%R) by (cbn; lra). rewrite <- E.
  apply (C48_bounded ex_vgs ex_g T (ex_c T) H1 H2 H3 H4 ex_fixed ex_near) with (B := 10%R) (P := 10%R) (B' := 10%R) (P' := 10%R) (D1 := 10) (K1 := 2);
    try lra; try (now apply ex_arrays_of).
  - exact ex_degrees.
  - intros f u _ _. apply spread_zero.
  - intros x _. apply ex_near_spread.
  - intros f _. apply spread_zero.
  - exact ex_moderate.
  - exact ex_near_moderate.
  - exact ex_supported.
  - exact ex_fixed_above.
  - exact ex_fixed_above.
Qed.
(** Its last variable has beliefs -4, -3, -2 at the fixed point, and is decoded to state 2 in
    both runs. *)
Example C48_decode_nonvacuous : exists r' q' y',
  get_beliefs (ex_c 0) (run_bp (ex_c 0) ex_near 2 (1 / 2)%R) = Ok r' /\ decode_map_states r' = Ok q' /\
  dget vg_eqb (VA ex_vg) q' = Some y' /\ cell (VA ex_vg) y' 4 = [2].
Proof.
  destruct (ex_given 0) as [H1 [H2 [H3 [H4 _]]]].
  assert (Ha : arrays_of (ex_c 0) ex_fixed) by (now apply ex_arrays_of). assert (Ha' : arrays_of (ex_c 0) ex_near) by (now apply ex_arrays_of).
  destruct (C48_decode ex_vgs ex_g 0 (ex_c 0) H1 H2 H3 H4 ex_fixed ex_near Ha Ha' 3 3 (1 / 2)%R 0%R (1 / 100)%R 0%R ex_degrees
    ltac:(lra) ltac:(lra) ltac:(lra) ltac:(lra) ltac:(lra) ltac:(intros f u _ _; apply spread_zero) ltac:(intros x _; apply ex_near_spread) ltac:(intros f _; apply spread_zero)
    10%R 10%R 10%R 10%R 10 2 ex_moderate ex_near_moderate ex_supported ex_fixed_above ex_fixed_above ex_pos ex_not_one 2)
    as [r [q [r' [q' [Er [_ [Er' [Eq' H]]]]]]]].
  destruct (H (VA ex_vg) (or_introl eq_refl)) as [b [y [y' [Eb [_ [Ey' C]]]]]].
  exists r', q', y'. split; [exact Er'|]. split; [exact Eq'|]. split; [exact Ey'|].
  destruct (C32_fixed_nonvacuous 2 (1 / 2)%R ltac:(lra)) as [Ef _]. fold ex_fixed in Ef. rewrite Ef in Er.
  destruct (C33_beliefs ex_vgs ex_g 0%R (ex_c 0) H1 H2 H3 H4 ex_fixed Ha ex_pos) as [r2 [Er2 [_ D]]]. rewrite Er in Er2. injection Er2 as <-.
  destruct (D (VA ex_vg) (or_introl eq_refl)) as [b2 [Eb2 [_ Rd]]]. rewrite Eb in Eb2. injection Eb2 as <-.
  assert (ER : row (VA ex_vg) b 4 = [Fin (-4); Fin (-3); Fin (-2)]%R).
  { rewrite (Rd 4 b4 eq_refl). cbn [b4 snd seq map app repeat state_axis ex_vg va_num_states nat_max fold_right Nat.max Nat.sub].
    repeat match goal with
    | |- ?l = ?l => reflexivity
    | |- _ :: _ = _ :: _ => apply f_equal2
    | |- Fin _ = Fin _ => apply f_equal; cbv -[IZR Rplus]; lra end. }
  apply (C 4 b4 2 (-2)%R eq_refl); [cbn; lia|rewrite ER; reflexivity|].
  intros t bt Ht Hne. rewrite ER. assert (E : drift 3 3 (1 / 2) 0 (1 / 100) 0 2 = (7 / 200)%R) by (cbn; lra). rewrite E.
  destruct t as [|[|[|t]]]; [| |lia|cbn in Ht; lia]; cbn [nth_error]; intros Hb; injection Hb as <-; cbn [INR]; lra.
Qed.
(** Constants on the first potentials, a message and a variable of the example graph. *)
Definition ex_moved : bp_arrays R :=
  {| ba_log_potentials := map IZR [8; 5; 10; 7; 4; -1; 2; 2]%Z; ba_ftov_msgs := map IZR [4; 3; 0; -2; -3; -5; 0; 0; -1; 0; 0; -4; -1; 0; 0; -2; 0; 0; -3; 0; 0; -1]%Z;
     ba_evidence := map IZR [3; 0; -1; 2; 0; 1; -4; 0; 5; 1; 4]%Z |}.
Lemma ex_moved_moderate : moderate ex_rfs (graph_pots (gr_groups ex_g) (ba_log_potentials ex_moved)) (length (enum_factors (gr_groups ex_g)))
  (read_ev (gr_vars_to_starts ex_g) (ba_evidence ex_moved)) 10 10 10 2.
Proof.
  destruct ex_moderate as [_ [M2 [M3 [M4 [M5 [M6 M7]]]]]]. split; [|split; [|repeat split; assumption]].
  - intros x s _ _. unfold read_ev. generalize (start_of (gr_vars_to_starts ex_g) x + s). intros i. do 11 (destruct i as [|i]; [cbn; lra|]); destruct i; cbn; lra.
  - intros f k Hf Hk. assert (f < 2) by exact Hf. unfold graph_pots. destruct (f <? _); [|lra]. unfold read_pots.
    match goal with |- (_ <= nth ?i _ _)%R => generalize i end. intros i. do 8 (destruct i as [|i]; [cbn; lra|]); destruct i; cbn; lra.
Qed.
Lemma ex_moved_above : above_floor (map snd (sf_edges ex_rfs)) (ba_ftov_msgs ex_moved).
Proof.
  intros e He. right. assert (e < 10) by exact He. unfold neg_inf.
  do 10 (destruct e as [|e]; [eapply Rle_trans; [|apply LemNum.rmaxs_ub; left; reflexivity]; cbn; lra|]). lia.
Qed.
Example C48_constants_nonvacuous : forall T n d, (0 <= T)%R -> (0 <= d <= 1)%R ->
  ba_ftov_msgs (run_bp (ex_c T) ex_moved n d) = ba_ftov_msgs (run_bp (ex_c T) ex_a n d).
Proof.
  intros T n d HT Hd. destruct (ex_given T) as [H1 [H2 [H3 [H4 H5]]]].
  assert (Hm : arrays_of (ex_c T) ex_moved) by (repeat split).
  apply (C48_constants ex_vgs ex_g T (ex_c T) H1 H2 H3 H4 ex_a ex_moved H5 Hm
    (fun f u => if (f =? 0) && (u =? 0) then 4%R else 0%R) (fun x => if var_eqb x b4 then 3%R else 0%R) (fun f => if f =? 0 then 7%R else 0%R)).
  - exact HT.
  - exact Hd.
  - exact ex_supported.
  - intros f u s Hf Hu Hs. assert (Hf4 : f < 4) by exact Hf.
    destruct f as [|[|[|[|f]]]]; try lia; (destruct u as [|[|[|u]]]; try (exfalso; vm_compute in Hu; lia)); (destruct s as [|[|[|s]]]; try (exfalso; vm_compute in Hs; lia)); cbv -[IZR Rplus]; lra.
  - intros x s Hx Hs. vm_compute in Hx. destruct Hx as [<-|[<-|[<-|[<-|[<-|[]]]]]];
      (destruct s as [|[|[|s]]]; try (cbn in Hs; lia)); cbv -[IZR Rplus]; lra.
  - intros f k Hf Hk. assert (Hf2 : f < 2) by exact Hf. destruct f as [|[|f]]; try lia; (destruct k as [|[|[|[|k]]]]; try (exfalso; vm_compute in Hk; lia)); cbv -[IZR Rplus]; lra.
  - apply (C48_bounded_lemma ex_vgs ex_g T (ex_c T) H1 H2 H3 H4 ex_a ex_moved H5 Hm d HT Hd ex_supported 10%R 10%R 10%R 10%R 10 2 n);
      [exact ex_moderate|exact ex_moved_moderate|exact ex_above|exact ex_moved_above].
Qed.
