(** * Properties C33-C35: beliefs, MAP states and marginals. *)
From Verif Require Import NumPy Lists VGroup FGraph BPState BP SpecVGroup SpecFGraph SpecFactor SpecWiring SpecState SpecBP SpecText SpecBeliefs.
From Verif Require Import LemBeliefs ExBP.
From Coq Require Import Reals Lra Lia QArith.
Local Close Scope Q_scope.
Local Close Scope R_scope.
Local Open Scope nat_scope.

(** ** C33: beliefs *)
Theorem C33_beliefs :
  forall vgs (g : fgraph R) T (c : bp_ctx R),
  groups_ok vgs -> reachable vgs g -> wf_groups (gr_groups g) -> bp_of g T c ->
  forall a, arrays_of c a ->
  (forall gr n, In gr vgs -> In n (vg_num_states gr) -> 0 < n) ->
  let fs := graph_factors 0%R (gr_groups g) in
  let belief := text_belief fs (read_ev (gr_vars_to_starts g) (ba_evidence a)) (read_msgs fs (ba_ftov_msgs a)) in
  exists b, get_beliefs c a = Ok b /\ map fst b = vgs /\
    forall gr, In gr vgs -> exists d, dget vg_eqb gr b = Some d /\ per_state_shape gr d /\
      forall i x, nth_error (vg_variables gr) i = Some x ->
        row gr d i = map (fun s => Fin (belief x s)) (seq 0 (snd x)) ++ repeat NInf (state_axis gr i - snd x).
Proof. exact C33_lemma. Qed.
Print Assumptions C33_beliefs.

Lemma ex_pos gr n : In gr ex_vgs -> In n (vg_num_states gr) -> 0 < n.
Proof. intros [<-|[]] Hn. vm_compute in Hn. destruct Hn as [<-|[<-|[<-|[<-|[<-|[]]]]]]; lia. Qed.
Lemma ex_not_one gr : In gr ex_vgs -> one_state gr = false.
Proof. now intros [<-|[]]. Qed.
(** In the example graph the variables have 2, 2, 2, 2 and 3 states. The last one is in
    two factors; the row of the first one is padded. *)
Example C33_nonvacuous : forall T, exists b d, get_beliefs (ex_c T) ex_a = Ok b /\ dget vg_eqb (VA ex_vg) b = Some d /\
  row (VA ex_vg) d 4 = [Fin 2; Fin (-5); Fin (-2)]%R /\ row (VA ex_vg) d 0 = [Fin 3; Fin (-5); NInf]%R.
Proof.
  intros T. destruct (ex_given T) as [H1 [H2 [H3 [H4 H5]]]].
  destruct (C33_beliefs ex_vgs ex_g T (ex_c T) H1 H2 H3 H4 ex_a H5 ex_pos) as [b [Eb [_ D]]].
  destruct (D (VA ex_vg) (or_introl eq_refl)) as [d [Ed [_ Rd]]]. exists b, d. split; [exact Eb|]. split; [exact Ed|].
  rewrite (Rd 4 b4 eq_refl), (Rd 0 b0 eq_refl). cbn [b4 b0 snd seq map app repeat state_axis ex_vg va_num_states nat_max fold_right Nat.max Nat.sub].
  split; repeat match goal with
    | |- ?l = ?l => reflexivity
    | |- _ :: _ = _ :: _ => apply f_equal2
    | |- Fin _ = Fin _ => apply f_equal; cbv -[IZR Rplus]; lra end.
Qed.
(** The same computation with rational numbers. *)
Example C33_computed :
  get_beliefs (ex_ctx inject_Z 0%Q) (ex_arrays inject_Z (map inject_Z ex_msgs_z) (map inject_Z ex_ev_z))
  = Ok [(VA ex_vg, DArr (mkArr [5; 3] [Fin 3; Fin (-5); NInf; Fin (-7); Fin 2; NInf; Fin (-3); Fin (-1); NInf; Fin (-4); Fin (-1); NInf; Fin 2; Fin (-5); Fin (-2)]%Q))].
Proof. vm_compute. reflexivity. Qed.

(** ** C34: MAP decoding *)
Theorem C34_map_states :
  forall vgs (g : fgraph R) T (c : bp_ctx R),
  groups_ok vgs -> reachable vgs g -> wf_groups (gr_groups g) -> bp_of g T c ->
  forall a, arrays_of c a ->
  (forall gr n, In gr vgs -> In n (vg_num_states gr) -> 0 < n) ->
  (forall gr, In gr vgs -> one_state gr = false) ->
  let fs := graph_factors 0%R (gr_groups g) in
  let belief := text_belief fs (read_ev (gr_vars_to_starts g) (ba_evidence a)) (read_msgs fs (ba_ftov_msgs a)) in
  exists b r, get_beliefs c a = Ok b /\ decode_map_states b = Ok r /\ map fst r = vgs /\
    forall gr, In gr vgs -> exists d, dget vg_eqb gr r = Some d /\ per_var_shape gr d /\
      forall i x, nth_error (vg_variables gr) i = Some x -> exists s, cell gr d i = [s] /\ first_best (belief x) (snd x) s.
Proof. exact C34_lemma. Qed.
Print Assumptions C34_map_states.

(** An array whose variables all have one state: the state axis is missing, so the last
    axis of the array itself is reduced and the result has no entry per variable. *)
Theorem C34_one_state :
  forall v s m (d : gdata (ext R)),
  one_state (VA v) = true -> va_shape v = s ++ [m] -> 0 < m -> per_state_shape (VA v) d ->
  exists y, map_gdata (along_last argmax) d = Ok (DArr y) /\ shape y = s /\ ~ per_var_shape (VA v) (DArr y).
Proof. exact (one_state_lemma argmax). Qed.
Print Assumptions C34_one_state.

(** Such an array without dimensions, or with an empty last one, cannot be decoded. *)
Theorem C34_no_axis :
  forall v (d : gdata (ext R)),
  one_state (VA v) = true -> va_shape v = [] \/ (exists s, va_shape v = s ++ [0]) -> per_state_shape (VA v) d ->
  map_gdata (along_last argmax) d = Raise ValueError.
Proof. exact (no_axis_lemma argmax). Qed.
Print Assumptions C34_no_axis.
(** One variable with one state. *)
Example C34_no_axis_nonvacuous :
  let v := {| va_id := 1; va_shape := []; va_num_states := [1] |} in
  NDVarArray 1 (NsScalar 1) [] = Ok v /\ one_state (VA v) = true /\
  per_state_shape (VA v) (DArr (mkArr [] [Fin 0%R])).
Proof. repeat split. Qed.

Example C34_nonvacuous : forall T, exists b r d, get_beliefs (ex_c T) ex_a = Ok b /\ decode_map_states b = Ok r /\
  dget vg_eqb (VA ex_vg) r = Some d /\ cell (VA ex_vg) d 4 = [0].
Proof.
  intros T. destruct (ex_given T) as [H1 [H2 [H3 [H4 H5]]]].
  destruct (C34_map_states ex_vgs ex_g T (ex_c T) H1 H2 H3 H4 ex_a H5 ex_pos ex_not_one) as [b [r [Eb [Er [_ D]]]]].
  destruct (D (VA ex_vg) (or_introl eq_refl)) as [d [Ed [_ Rd]]]. exists b, r, d. split; [exact Eb|]. split; [exact Er|]. split; [exact Ed|].
  destruct (Rd 4 b4 eq_refl) as [s [-> [S1 [S2 S3]]]]. cbn [b4 snd] in S1. destruct s as [|s]; [reflexivity|]. exfalso.
  specialize (S3 0 (Nat.lt_0_succ s)). destruct s as [|[|s]]; [| |lia]; revert S3; cbv -[IZR Rplus Rlt]; lra.
Qed.
Example C34_computed :
  (b <- get_beliefs (ex_ctx inject_Z 0%Q) (ex_arrays inject_Z (map inject_Z ex_msgs_z) (map inject_Z ex_ev_z)) ;; decode_map_states b)
  = Ok [(VA ex_vg, DArr (mkArr [5] [0; 1; 1; 1; 0]))].
Proof. vm_compute. reflexivity. Qed.
(** Ties are resolved to the lowest state. *)
Example C34_ties : argmax (map Fin [-1; 3; 2; 3]%Q ++ [NInf]) = 1.
Proof. vm_compute. reflexivity. Qed.
Example C34_one_state_nonvacuous :
  NDVarArray 7 (NsScalar 1) [2; 3] = Ok {| va_id := 7; va_shape := [2; 3]; va_num_states := [1; 1; 1; 1; 1; 1] |} /\
  decode_map_states [(VA {| va_id := 7; va_shape := [2; 3]; va_num_states := [1; 1; 1; 1; 1; 1] |}, DArr (mkArr [2; 3] (map Fin [1; 2; 3; 6; 5; 4]%Q)))]
  = Ok [(VA {| va_id := 7; va_shape := [2; 3]; va_num_states := [1; 1; 1; 1; 1; 1] |}, DArr (mkArr [2] [2; 0]))].
Proof. split; vm_compute; reflexivity. Qed.

(** ** C35: marginals *)
Theorem C35_marginals :
  forall vgs (g : fgraph R) T (c : bp_ctx R),
  groups_ok vgs -> reachable vgs g -> wf_groups (gr_groups g) -> bp_of g T c ->
  forall a, arrays_of c a ->
  (forall gr n, In gr vgs -> In n (vg_num_states gr) -> 0 < n) ->
  (forall gr, In gr vgs -> one_state gr = false) ->
  let fs := graph_factors 0%R (gr_groups g) in
  let belief := text_belief fs (read_ev (gr_vars_to_starts g) (ba_evidence a)) (read_msgs fs (ba_ftov_msgs a)) in
  exists b r, get_beliefs c a = Ok b /\ get_marginals b = Ok r /\ map fst r = vgs /\
    forall gr, In gr vgs -> exists d, dget vg_eqb gr r = Some d /\ per_state_shape gr d /\
      forall i x, nth_error (vg_variables gr) i = Some x ->
        row gr d i = map (gibbs (belief x) (snd x)) (seq 0 (snd x)) ++ repeat 0%R (state_axis gr i - snd x).
Proof. exact C35_lemma. Qed.
Print Assumptions C35_marginals.

(** One vector along the state axis with at least one finite belief. *)
Theorem C35_row :
  forall (xs : list (ext R)) a, In (Fin a) xs ->
  let p := marginals_row xs in
  length p = length xs /\ (forall y, In y p -> (0 <= y)%R) /\ rsum p = 1%R /\
  (forall i, nth_error xs i = Some NInf -> nth_error p i = Some 0%R) /\
  (forall i x, nth_error xs i = Some (Fin x) -> exists q, nth_error p i = Some q /\ (0 < q)%R) /\
  (forall i j x y, nth_error xs i = Some (Fin x) -> nth_error xs j = Some (Fin y) -> (x < y)%R ->
     exists q r, nth_error p i = Some q /\ nth_error p j = Some r /\ (q < r)%R) /\
  (forall k, marginals_row (map (ext_add k) xs) = p).
Proof. exact C35_row_lemma. Qed.
Print Assumptions C35_row.

(** Arrays of one-state variables: the marginals are normalised along the last axis of
    the array, across variables, so those of one variable do not sum to 1. *)
Theorem C35_one_state :
  forall v s m (d : gdata (ext R)),
  one_state (VA v) = true -> va_shape v = s ++ [m] -> 0 < m -> per_state_shape (VA v) d ->
  exists a y, d = DArr a /\ map_gdata (marginals_array (A := R)) d = Ok (DArr y) /\
    data y = concat (map marginals_row (rows (prod s) m (data a))).
Proof. exact one_state_marginals_lemma. Qed.
Print Assumptions C35_one_state.

Example C35_nonvacuous : forall T, exists b r d q0 q1 q2, get_beliefs (ex_c T) ex_a = Ok b /\ get_marginals b = Ok r /\
  dget vg_eqb (VA ex_vg) r = Some d /\ row (VA ex_vg) d 4 = [q0; q1; q2] /\ row (VA ex_vg) d 0 = [exp 3 / (exp 3 + exp (-5)); exp (-5) / (exp 3 + exp (-5)); 0]%R.
Proof.
  intros T. destruct (ex_given T) as [H1 [H2 [H3 [H4 H5]]]].
  destruct (C35_marginals ex_vgs ex_g T (ex_c T) H1 H2 H3 H4 ex_a H5 ex_pos ex_not_one) as [b [r [Eb [Er [_ D]]]]].
  destruct (D (VA ex_vg) (or_introl eq_refl)) as [d [Ed [_ Rd]]]. exists b, r, d. do 3 eexists. split; [exact Eb|]. split; [exact Er|]. split; [exact Ed|].
  rewrite (Rd 4 b4 eq_refl), (Rd 0 b0 eq_refl). split; [reflexivity|].
  match goal with |- map (gibbs ?b _) _ ++ _ = _ =>
    assert (E0 : b 0 = 3%R) by (cbv -[IZR Rplus]; lra); assert (E1 : b 1 = (-5)%R) by (cbv -[IZR Rplus]; lra) end.
  cbn [b0 snd seq map app repeat state_axis ex_vg va_num_states nat_max fold_right Nat.max Nat.sub]. unfold gibbs. cbn [seq map].
  rewrite E0, E1. unfold rsum. cbn [fold_right]. now rewrite Rplus_0_r.
Qed.
Example C35_one_state_nonvacuous : exists d, per_state_shape (VA {| va_id := 7; va_shape := [2]; va_num_states := [1; 1] |}) d /\
  map_gdata (marginals_array (A := R)) d = Ok (DArr (mkArr [2] [1 / 2; 1 / 2]%R)).
Proof.
  exists (DArr (mkArr [2] [Fin 0; Fin 0]%R)). split; [split; reflexivity|].
  cbn [map_gdata marginals_array]. unfold marginals_array, along_last. cbn [shape rev app data prod rows firstn skipn Nat.mul map concat bind].
  rewrite (marginals_row_eq _ 0%R) by (now left). cbn [map ext_exp app concat rsum fold_right]. rewrite exp_0. unfold rsum. cbn [fold_right]. do 4 f_equal; [lra|]. f_equal. lra.
Qed.
