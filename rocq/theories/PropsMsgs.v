(** * Properties C23-C28, C41: the messages of one iteration. *)
From Verif Require Import NumPy Lists FGraph BPState BP SpecFGraph SpecFactor SpecWiring SpecState SpecBP SpecText.
From Verif Require Import LemPass ExBP.
From Coq Require Import Reals Lra Lia QArith.
Local Close Scope Q_scope.
Local Close Scope R_scope.
Local Open Scope nat_scope.

(** ** C23: variable-to-factor messages *)
Theorem C23_var_to_fac :
  forall vgs (g : fgraph R) T (c : bp_ctx R) a,
  groups_ok vgs -> reachable vgs g -> wf_groups (gr_groups g) -> bp_of g T c -> arrays_of c a ->
  let fs := graph_factors 0%R (gr_groups g) in
  msg_eq fs
    (read_msgs fs (pass_var_to_fac_messages (ba_ftov_msgs a) (ba_evidence a) (bc_var_states_for_edges c)))
    (var_to_fac fs (read_ev (gr_vars_to_starts g) (ba_evidence a)) (read_msgs fs (ba_ftov_msgs a))).
Proof. exact C23_lemma. Qed.
Print Assumptions C23_var_to_fac.

(** Variable [b4] (three states) has two factors: the message to the first is the evidence
    plus the message of the second. *)
Example C23_nonvacuous :
  groups_ok ex_vgs /\ reachable ex_vgs ex_g /\ wf_groups (gr_groups ex_g) /\ bp_of ex_g 0%R (ex_c 0%R) /\
  arrays_of (ex_c 0%R) ex_a /\
  map (fun s => var_to_fac ex_rfs (read_ev (gr_vars_to_starts ex_g) (ba_evidence ex_a)) (read_msgs ex_rfs (ba_ftov_msgs ex_a)) 0 1 s) [0; 1; 2]
  = [2 + (0 + 0); -2 + (-1 + 0); 1 + (0 + 0)]%R.
Proof.
  destruct (ex_given 0%R) as [H1 [H2 [H3 [H4 H5]]]]. repeat (split; [assumption|]). reflexivity.
Qed.

(** ** C24: enumeration factors at temperature 0 *)
Theorem C24_enum_max :
  forall junk (g : fgraph R) st lp vt,
  wf_groups (gr_groups g) -> compile_fg_state junk g = Ok st ->
  length vt = st_total_factor_num_states st -> length lp = length (st_log_potentials st) ->
  let fs := graph_factors 0%R (gr_groups g) in
  forall f u s, f < length (enum_factors (gr_groups g)) -> u < arity fs f -> s < snd (var_at fs f u) ->
  read_msgs fs (pass_fac_to_var_messages st 0%R lp vt) f u s
  = fac_to_var_floor fs (graph_pots (gr_groups g) lp) (read_msgs fs vt) f u s.
Proof. exact C24_lemma. Qed.
Print Assumptions C24_enum_max.

(** When one total reaches NEG_INF this is the maximum of the textbook. *)
Theorem C24_enum_textbook :
  forall junk (g : fgraph R) st lp vt,
  wf_groups (gr_groups g) -> compile_fg_state junk g = Ok st ->
  length vt = st_total_factor_num_states st -> length lp = length (st_log_potentials st) ->
  let fs := graph_factors 0%R (gr_groups g) in
  forall f u s, f < length (enum_factors (gr_groups g)) -> u < arity fs f -> s < snd (var_at fs f u) ->
  (exists c, In c (choices fs f u s) /\
     (neg_inf <= score fs (graph_pots (gr_groups g) lp) (read_msgs fs vt) f c)%R) ->
  read_msgs fs (pass_fac_to_var_messages st 0%R lp vt) f u s
  = fac_to_var_max fs (graph_pots (gr_groups g) lp) (read_msgs fs vt) f u s.
Proof. exact C24_textbook_lemma. Qed.
Print Assumptions C24_enum_textbook.

Theorem C24_no_configuration :
  forall junk (g : fgraph R) st lp vt,
  wf_groups (gr_groups g) -> compile_fg_state junk g = Ok st ->
  length vt = st_total_factor_num_states st -> length lp = length (st_log_potentials st) ->
  let fs := graph_factors 0%R (gr_groups g) in
  forall f u s, f < length (enum_factors (gr_groups g)) -> u < arity fs f -> s < snd (var_at fs f u) ->
  choices fs f u s = [] ->
  read_msgs fs (pass_fac_to_var_messages st 0%R lp vt) f u s = (neg_inf - read_msgs fs vt f u s)%R.
Proof. exact C24_none_lemma. Qed.
Print Assumptions C24_no_configuration.

Definition ex_vt : list R := map IZR ex_msgs_z.
Lemma ex_st_given : wf_groups (gr_groups ex_g) /\ compile_fg_state (fun _ => 0%Z) ex_g = Ok (ex_state IZR) /\
  length ex_vt = st_total_factor_num_states (ex_state IZR) /\
  length (ba_log_potentials ex_a) = length (st_log_potentials (ex_state IZR)).
Proof. split; [apply ex_wf|]. split; [apply ex_compiles|]. split; reflexivity. Qed.

(** The first factor to its variable [b4] in state 2: two configurations, (0,2) with
    potential -2 and (1,2) with potential 0. *)
Example C24_nonvacuous :
  (wf_groups (gr_groups ex_g) /\ compile_fg_state (fun _ => 0%Z) ex_g = Ok (ex_state IZR) /\
   length ex_vt = st_total_factor_num_states (ex_state IZR) /\
   length (ba_log_potentials ex_a) = length (st_log_potentials (ex_state IZR))) /\
  0 < length (enum_factors (gr_groups ex_g)) /\ 1 < arity ex_rfs 0 /\ 2 < snd (var_at ex_rfs 0 1) /\
  choices ex_rfs 0 1 2 = [1; 3] /\
  (neg_inf <= score ex_rfs (graph_pots (gr_groups ex_g) (ba_log_potentials ex_a)) (read_msgs ex_rfs ex_vt) 0 1)%R /\
  fac_to_var_max ex_rfs (graph_pots (gr_groups ex_g) (ba_log_potentials ex_a)) (read_msgs ex_rfs ex_vt) 0 1 2 = (-1)%R.
Proof.
  split; [exact ex_st_given|]. repeat split; try (vm_compute; lia); try (vm_compute; reflexivity).
  - cbv -[IZR Rplus Rle Ropp]. lra.
  - unfold fac_to_var_max. change (choices ex_rfs 0 1 2) with [1; 3]. cbv -[IZR Rplus Rle Ropp Rmax].
    unfold Rmax. destruct (Rle_dec _ _); lra.
Qed.
(** The same message computed by the model over the rationals. *)
Example C24_computed :
  nth 4 (pass_fac_to_var_messages (ex_state inject_Z) (inject_Z 0) (map inject_Z [1; -2; 3; 0; 4; -1; 2; 2]%Z) (map inject_Z ex_msgs_z)) (inject_Z 0)
  = inject_Z (-1).
Proof. vm_compute. reflexivity. Qed.

(** ** C25: enumeration factors at temperature T *)
Theorem C25_enum_soft :
  forall junk (g : fgraph R) st lp vt,
  wf_groups (gr_groups g) -> compile_fg_state junk g = Ok st ->
  length vt = st_total_factor_num_states st -> length lp = length (st_log_potentials st) ->
  let fs := graph_factors 0%R (gr_groups g) in
  forall T f u s, T <> 0%R ->
  f < length (enum_factors (gr_groups g)) -> u < arity fs f -> s < snd (var_at fs f u) ->
  choices fs f u s <> [] ->
  read_msgs fs (pass_fac_to_var_messages st T lp vt) f u s
  = fac_to_var_soft fs (graph_pots (gr_groups g) lp) T (read_msgs fs vt) f u s.
Proof. exact C25_lemma. Qed.
Print Assumptions C25_enum_soft.

(** Temperature 1 is sum-product. *)
Theorem C25_sum_product :
  forall junk (g : fgraph R) st lp vt,
  wf_groups (gr_groups g) -> compile_fg_state junk g = Ok st ->
  length vt = st_total_factor_num_states st -> length lp = length (st_log_potentials st) ->
  let fs := graph_factors 0%R (gr_groups g) in
  let v := read_msgs fs vt in
  forall f u s, f < length (enum_factors (gr_groups g)) -> u < arity fs f -> s < snd (var_at fs f u) ->
  choices fs f u s <> [] ->
  read_msgs fs (pass_fac_to_var_messages st 1%R lp vt) f u s
  = ln (rsum (map (fun c => exp (score_but fs (graph_pots (gr_groups g) lp) v f c u)) (choices fs f u s))).
Proof. exact C25_one_lemma. Qed.
Print Assumptions C25_sum_product.

Example C25_nonvacuous :
  (wf_groups (gr_groups ex_g) /\ compile_fg_state (fun _ => 0%Z) ex_g = Ok (ex_state IZR) /\
   length ex_vt = st_total_factor_num_states (ex_state IZR) /\
   length (ba_log_potentials ex_a) = length (st_log_potentials (ex_state IZR))) /\
  choices ex_rfs 1 0 1 = [2; 3] /\
  fac_to_var_soft ex_rfs (graph_pots (gr_groups ex_g) (ba_log_potentials ex_a)) 1 (read_msgs ex_rfs ex_vt) 1 0 1
  = ln (exp (2 + -1) + exp (2 + 0)).
Proof.
  split; [exact ex_st_given|]. split; [reflexivity|].
  unfold fac_to_var_soft. change (choices ex_rfs 1 0 1) with [2; 3]. cbn [map]. unfold rsum. cbn [fold_right].
  unfold score_but. cbv -[IZR Rplus Rle Ropp Rmult Rdiv ln exp].
  rewrite Rmult_1_l. f_equal. rewrite !Rplus_0_r. f_equal; f_equal; lra.
Qed.

(** ** C26: OR and AND factors at temperature 0 *)
Theorem C26_logical_max :
  forall junk (g : fgraph R) st lp vt,
  wf_groups (gr_groups g) -> compile_fg_state junk g = Ok st ->
  length vt = st_total_factor_num_states st -> length lp = length (st_log_potentials st) ->
  let fs := graph_factors 0%R (gr_groups g) in
  let ne := length (enum_factors (gr_groups g)) in
  let v := read_msgs fs vt in
  (forall f u s s', ne <= f < length fs -> u < arity fs f ->
     s < snd (var_at fs f u) -> s' < snd (var_at fs f u) -> (neg_inf < v f u s - v f u s')%R) ->
  forall f u, ne <= f < length fs -> u < arity fs f -> exists k, forall s, s < snd (var_at fs f u) ->
    read_msgs fs (pass_fac_to_var_messages st 0%R lp vt) f u s
    = (fac_to_var_max fs (graph_pots (gr_groups g) lp) v f u s + k)%R.
Proof. exact C26_lemma. Qed.
Print Assumptions C26_logical_max.

(** The same for the update of any list of OR (AND) factors on its own. *)
Theorem C26_factors :
  forall t vss (vt : list R), t <> TEnum -> logical_ok vss ->
  let fs := map (logical_sf 0%R t) vss in
  length vt = total_states fs ->
  (forall f u s s', f < length fs -> u < arity fs f -> s < 2 -> s' < 2 ->
     (neg_inf < read_msgs fs vt f u s - read_msgs fs vt f u s')%R) ->
  msg_eq_upto fs
    (read_msgs fs (pass_logical_fac_to_var_messages vt (lf_parents (relevant_state t) vss)
                     (lf_children (relevant_state t) vss) (type_offset t) 0%R))
    (fac_to_var_max fs (fun _ _ => 0%R) (read_msgs fs vt)).
Proof. exact C26_factors_lemma. Qed.
Print Assumptions C26_factors.

Lemma ex_differences n : (forall f u s s', n <= f < length ex_rfs -> u < arity ex_rfs f ->
  s < snd (var_at ex_rfs f u) -> s' < snd (var_at ex_rfs f u) ->
  (neg_inf < read_msgs ex_rfs ex_vt f u s - read_msgs ex_rfs ex_vt f u s')%R).
Proof.
  intros f u s s' _ _ _ _. unfold read_msgs, ex_vt.
  assert (B : forall i, (-5 <= nth i (map IZR ex_msgs_z) 0 <= 0)%R).
  { intros i. do 22 (destruct i as [|i]; [cbn; lra|]). destruct i; cbn; lra. }
  pose proof (B (slot_index ex_rfs f u s)). pose proof (B (slot_index ex_rfs f u s')). unfold neg_inf. lra.
Qed.
(** The OR factor (number 2) and the AND factor (number 3) of the example graph: the
    message of the OR factor to its first parent, state 1 minus state 0, by enumeration. *)
Example C26_nonvacuous :
  (wf_groups (gr_groups ex_g) /\ compile_fg_state (fun _ => 0%Z) ex_g = Ok (ex_state IZR) /\
   length ex_vt = st_total_factor_num_states (ex_state IZR) /\
   length (ba_log_potentials ex_a) = length (st_log_potentials (ex_state IZR))) /\
  length (enum_factors (gr_groups ex_g)) = 2 /\ length ex_rfs = 4 /\ arity ex_rfs 2 = 3 /\
  (fac_to_var_max ex_rfs (graph_pots (gr_groups ex_g) (ba_log_potentials ex_a)) (read_msgs ex_rfs ex_vt) 2%nat 0%nat 1%nat
   - fac_to_var_max ex_rfs (graph_pots (gr_groups ex_g) (ba_log_potentials ex_a)) (read_msgs ex_rfs ex_vt) 2%nat 0%nat 0%nat = -1)%R.
Proof.
  split; [exact ex_st_given|]. repeat (split; [reflexivity|]).
  unfold fac_to_var_max. change (choices ex_rfs 2 0 1) with [1; 3]. change (choices ex_rfs 2 0 0) with [0; 2].
  cbv -[IZR Rplus Rle Ropp Rmax Rminus]. unfold Rmax. repeat destruct (Rle_dec _ _); lra.
Qed.
(** The model's message over the rationals. *)
Example C26_computed :
  let out := pass_fac_to_var_messages (ex_state inject_Z) (inject_Z 0) (map inject_Z [1; -2; 3; 0; 4; -1; 2; 2]%Z) (map inject_Z ex_msgs_z) in
  slice out 10 16 = map inject_Z [0; -1; 0; -2; 0; 1]%Z.
Proof. vm_compute. reflexivity. Qed.

(** ** C27: OR and AND factors at temperature T *)
Theorem C27_logical_soft :
  forall junk (g : fgraph R) st lp vt,
  wf_groups (gr_groups g) -> compile_fg_state junk g = Ok st ->
  length vt = st_total_factor_num_states st -> length lp = length (st_log_potentials st) ->
  let fs := graph_factors 0%R (gr_groups g) in
  let ne := length (enum_factors (gr_groups g)) in
  forall T, T <> 0%R ->
  forall f u, ne <= f < length fs -> u < arity fs f -> exists k, forall s, s < snd (var_at fs f u) ->
    read_msgs fs (pass_fac_to_var_messages st T lp vt) f u s
    = (fac_to_var_soft fs (graph_pots (gr_groups g) lp) T (read_msgs fs vt) f u s + k)%R.
Proof. exact C27_lemma. Qed.
Print Assumptions C27_logical_soft.

Theorem C27_factors :
  forall t vss (vt : list R) T, t <> TEnum -> logical_ok vss -> T <> 0%R ->
  let fs := map (logical_sf 0%R t) vss in
  length vt = total_states fs ->
  msg_eq_upto fs
    (read_msgs fs (pass_logical_fac_to_var_messages vt (lf_parents (relevant_state t) vss)
                     (lf_children (relevant_state t) vss) (type_offset t) T))
    (fac_to_var_soft fs (fun _ _ => 0%R) T (read_msgs fs vt)).
Proof. exact C27_factors_lemma. Qed.
Print Assumptions C27_factors.

(** The enumeration for the OR factor of the example: (1,0,1) and (1,1,1) against (0,0,0)
    and (0,1,1). *)
Example C27_nonvacuous :
  (wf_groups (gr_groups ex_g) /\ compile_fg_state (fun _ => 0%Z) ex_g = Ok (ex_state IZR) /\
   length ex_vt = st_total_factor_num_states (ex_state IZR) /\
   length (ba_log_potentials ex_a) = length (st_log_potentials (ex_state IZR))) /\
  2 <= 2 < length ex_rfs /\ (1 <> 0)%R /\
  fac_to_var_soft ex_rfs (graph_pots (gr_groups ex_g) (ba_log_potentials ex_a)) 1 (read_msgs ex_rfs ex_vt) 2 0 1 = ln (exp (-1 + -2) + exp (0 + -2)).
Proof.
  split; [exact ex_st_given|]. split; [vm_compute; lia|]. split; [lra|].
  unfold fac_to_var_soft. change (choices ex_rfs 2 0 1) with [1; 3]. cbn [map]. unfold rsum. cbn [fold_right].
  unfold score_but. cbv -[IZR Rplus Rle Ropp Rmult Rdiv ln exp].
  rewrite Rmult_1_l. f_equal. rewrite !Rplus_0_r. f_equal; f_equal; lra.
Qed.

(** ** C28: a logical factor is equivalent to the enumerated factor *)
Theorem C28_equivalent :
  forall t vss (vt : list R) T, t <> TEnum -> logical_ok vss ->
  let fs := map (logical_sf 0%R t) vss in
  let v := read_msgs fs vt in
  length vt = total_states fs ->
  (T = 0%R -> forall f u s s', f < length fs -> u < arity fs f -> s < 2 -> s' < 2 ->
     (neg_inf < v f u s - v f u s')%R) ->
  (T = 0%R -> forall f u s, f < length fs -> u < arity fs f -> s < snd (var_at fs f u) ->
     exists c, In c (choices fs f u s) /\ (neg_inf <= score fs (fun _ _ => 0%R) v f c)%R) ->
  let logical := pass_logical_fac_to_var_messages vt (lf_parents (relevant_state t) vss)
                   (lf_children (relevant_state t) vss) (type_offset t) T in
  let enumerated := pass_enum_fac_to_var_messages vt (sf_rows fs) (repeat 0%R (total_configs fs))
                      (total_configs fs) T in
  msg_eq_upto fs (read_msgs fs logical) (read_msgs fs enumerated) /\
  msg_eq fs (normal fs (read_msgs fs logical)) (normal fs (read_msgs fs enumerated)).
Proof. exact C28_both_lemma. Qed.
Print Assumptions C28_equivalent.

(** Two OR factors with two and three parents. *)
Definition ex_ors : list (list variable) := [[b0; b1; b2]; [b0; b1; b2; b3]].
Definition ex_or_vt : list R := map IZR [0; -1; -3; 0; 0; -2; -1; 0; 0; 0; 0; -4; -2; 0]%Z.
Example C28_nonvacuous :
  logical_ok ex_ors /\
  let fs := map (logical_sf 0%R TOr) ex_ors in
  length ex_or_vt = total_states fs /\
  (forall f u s s', f < length fs -> u < arity fs f -> s < 2 -> s' < 2 ->
     (neg_inf < read_msgs fs ex_or_vt f u s - read_msgs fs ex_or_vt f u s')%R) /\
  (forall f u s, f < length fs -> u < arity fs f -> s < snd (var_at fs f u) ->
     exists c, In c (choices fs f u s) /\ (neg_inf <= score fs (fun _ _ => 0%R) (read_msgs fs ex_or_vt) f c)%R).
Proof.
  assert (B : forall i, (-4 <= nth i ex_or_vt 0 <= 0)%R).
  { intros i. unfold ex_or_vt. do 14 (destruct i as [|i]; [cbn; lra|]). destruct i; cbn; lra. }
  split; [|split; [reflexivity|split]].
  - intros vs [<-|[<-|[]]]; (split; [cbn; lia|]); intros x [<-|[<-|[<-|H]]]; try reflexivity; destruct H as [<-|[]] || destruct H; reflexivity.
  - intros f u s s' _ _ _ _. unfold read_msgs. pose proof (B (slot_index (map (logical_sf 0%R TOr) ex_ors) f u s)).
    pose proof (B (slot_index (map (logical_sf 0%R TOr) ex_ors) f u s')). unfold neg_inf. lra.
  - intros f u s Hf Hu Hs.
    assert (Hc : exists c, In c (choices (map (logical_sf 0%R TOr) ex_ors) f u s)).
    { destruct f as [|[|f]]; [| |cbn in Hf; lia];
        destruct u as [|[|[|[|u]]]]; try (cbn in Hu; lia);
        destruct s as [|[|s]]; try (cbn in Hs; lia); eexists; vm_compute; left; reflexivity. }
    destruct Hc as [c Hc]. exists c. split; [exact Hc|]. unfold score, read_msgs.
    assert (Hle : length (seq 0 (arity (map (logical_sf 0%R TOr) ex_ors) f)) <= 4).
    { rewrite seq_length. destruct f as [|[|f]]; cbn; [lia|lia|]. cbn in Hf. lia. }
    revert Hle. generalize (seq 0 (arity (map (logical_sf 0%R TOr) ex_ors) f)). intros l Hle.
    set (h := fun u => nth _ _ _).
    assert (Bh : forall u, (-4 <= h u <= 0)%R) by (intros; apply B). clearbody h.
    destruct l as [|x1 [|x2 [|x3 [|x4 [|]]]]]; cbn in Hle; try lia; cbn; unfold neg_inf;
      repeat match goal with |- context [h ?x] => pose proof (Bh x); generalize dependent (h x); intros end; lra.
Qed.

(** ** C41: low temperatures *)
Theorem C41_low_temperature :
  forall junk (g : fgraph R) st lp vt,
  wf_groups (gr_groups g) -> compile_fg_state junk g = Ok st ->
  length vt = st_total_factor_num_states st -> length lp = length (st_log_potentials st) ->
  let fs := graph_factors 0%R (gr_groups g) in
  forall T f u s, (0 < T)%R ->
  f < length (enum_factors (gr_groups g)) -> u < arity fs f -> s < snd (var_at fs f u) ->
  (exists c, In c (choices fs f u s) /\
     (neg_inf <= score fs (graph_pots (gr_groups g) lp) (read_msgs fs vt) f c)%R) ->
  let low := read_msgs fs (pass_fac_to_var_messages st 0%R lp vt) f u s in
  (low <= read_msgs fs (pass_fac_to_var_messages st T lp vt) f u s
       <= low + T * ln (INR (length (sf_configs (factor_at fs f)))))%R.
Proof. exact C41_lemma. Qed.
Print Assumptions C41_low_temperature.

(** The case of [C24_nonvacuous]: four configurations, so within T * ln 4. *)
Example C41_nonvacuous :
  (neg_inf <= score ex_rfs (graph_pots (gr_groups ex_g) (ba_log_potentials ex_a)) (read_msgs ex_rfs ex_vt) 0 1)%R /\
  length (sf_configs (factor_at ex_rfs 0)) = 4.
Proof. split; [|reflexivity]. cbv -[IZR Rplus Rle Ropp]. lra. Qed.
