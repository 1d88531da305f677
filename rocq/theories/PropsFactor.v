(** * Properties C10-C15: factors and factor groups. *)
From Verif Require Import FGraph SpecVGroup SpecFactor LemFactor.
From Coq Require Import Lia QArith.
Local Close Scope Q_scope.
Local Open Scope nat_scope.

(** ** C10: EnumFactor accepts exactly well-formed factors *)
Theorem C10_enum_factor :
  forall (A : Type) vs configs_int configs pots_float (pots : ndarray A),
  (forall f, EnumFactor vs configs_int configs pots_float pots = Ok f <->
     configs_int = true /\ pots_float = true /\
     (exists n, legal_configs vs configs n /\ shape pots = [n]) /\
     f = {| ef_variables := vs; ef_configs := configs; ef_log_potentials := data pots |}) /\
  (forall e, EnumFactor vs configs_int configs pots_float pots = Raise e -> e = ValueError).
Proof. exact (fun A => @EnumFactor_spec A). Qed.
Print Assumptions C10_enum_factor.

Example C10_nonvacuous :
  let vs := [(10%Z, 2); (11%Z, 3)] in
  legal_configs vs (mkArr [2; 2] [0; 2; 1; 0]%Z) 2 /\
  (exists f, EnumFactor vs true (mkArr [2; 2] [0; 2; 1; 0]%Z) true (mkArr [2] [7; 8]) = Ok f) /\
  EnumFactor vs true (mkArr [2; 2] [0; 3; 1; 0]%Z) true (mkArr [2] [7; 8]) = Raise ValueError /\
  EnumFactor vs true (mkArr [2; 2] [0; 2; 1; 0]%Z) true (mkArr [2; 1] [7; 8]) = Raise ValueError.
Proof.
  split; [|split; [eexists; reflexivity|split; reflexivity]].
  split; [reflexivity|]. intros [|[|r]] [|[|u]] x Hr Hu; simpl in *; try lia; try discriminate;
    try (injection Hu as <-; vm_compute; split; [discriminate|reflexivity]); destruct u; discriminate.
Qed.

(** ** C11: logical factors and wirings *)
Theorem C11_logical_factor :
  forall t vs,
  (forall f, LogicalFactor t vs = Ok f <->
     2 <= length vs /\ binary_vars vs /\ f = {| lf_type := t; lf_variables := vs |}) /\
  (forall e, LogicalFactor t vs = Raise e -> e = ValueError).
Proof. exact LogicalFactor_spec. Qed.
Print Assumptions C11_logical_factor.

Theorem C11_logical_wiring :
  forall w,
  let nf := length (lw_children_edge_states w) in
  let idx := map fst (lw_parents_edge_states w) in
  (forall w', LogicalWiring w = Ok w' <->
     w' = w /\ (0 < nf -> has_distinct idx nf /\ (forall i, In i idx -> i < Z.of_nat nf)%Z /\
                (lw_edge_states_offset w = 1 \/ lw_edge_states_offset w = -1)%Z)) /\
  (forall e, LogicalWiring w = Raise e -> e = ValueError).
Proof. exact LogicalWiring_spec. Qed.
Print Assumptions C11_logical_wiring.

Example C11_nonvacuous :
  (exists f, LogicalFactor TOr [(1%Z, 2); (2%Z, 2); (3%Z, 2)] = Ok f) /\
  LogicalFactor TAnd [(1%Z, 2); (2%Z, 3)] = Raise ValueError /\
  LogicalFactor TAnd [(1%Z, 2)] = Raise ValueError /\
  (let w i o := {| lw_edges_num_states := []; lw_var_states_for_edges := [];
                   lw_parents_edge_states := [(0, 0); (i, 4)]%Z;
                   lw_children_edge_states := [2; 6]%Z; lw_edge_states_offset := o |} in
   (exists w', LogicalWiring (w 1 1)%Z = Ok w') /\ LogicalWiring (w 0 1)%Z = Raise ValueError /\
   LogicalWiring (w 2 1)%Z = Raise ValueError /\ LogicalWiring (w 1 2)%Z = Raise ValueError).
Proof. repeat split; try reflexivity; eexists; reflexivity. Qed.

(** ** C12: EnumFactorGroup *)
Theorem C12_enum_group :
  forall (A : Type) (NA : Num A) id vars configs (pots : option (bool * ndarray A)),
  (match pots with Some (_, p) => wf_arr p | None => True end) ->
  (forall g, EnumFactorGroup id vars configs pots = Ok g ->
     exists nc rest, shape configs = nc :: rest /\
       fg_id g = id /\ fg_kind g = KEnum /\ fg_type g = TEnum /\ fg_vars g = vars /\ fg_configs g = configs /\
       length (fg_log_potentials g) = length vars * nc /\
       forall f c d, f < length vars -> c < nc ->
         nth (f * nc + c) (fg_log_potentials g) d =
         match pots with
         | None => nofZ 0
         | Some (_, p) => if length (shape p) =? 1 then nth c (data p) d
                          else nth (f * nc + c) (data p) d
         end) /\
  ((exists g, EnumFactorGroup id vars configs pots = Ok g) <->
     vars <> [] /\ exists nc rest, shape configs = nc :: rest /\
       (pots = None \/ exists p, pots = Some (true, p) /\ (shape p = [nc] \/ shape p = [length vars; nc]))) /\
  (forall e, EnumFactorGroup id vars configs pots = Raise e ->
     e = ValueError \/ (e = IndexError /\ shape configs = [])).
Proof. exact (fun A NA => @EnumFactorGroup_spec A NA). Qed.
Print Assumptions C12_enum_group.

(** The kinds of errors: configurations without dimensions are indexed before anything is
    checked. *)
Theorem C12_enum_errors :
  forall (A : Type) (NA : Num A) id vars configs (pots : option (bool * ndarray A)),
  (vars <> [] -> shape configs = [] -> EnumFactorGroup id vars configs pots = Raise IndexError) /\
  (forall e, EnumFactorGroup id vars configs pots = Raise e -> vars = [] \/ shape configs <> [] -> e = ValueError).
Proof. exact (fun A NA => @EnumFactorGroup_errors A NA). Qed.
Print Assumptions C12_enum_errors.
Example C12_enum_errors_nonvacuous :
  EnumFactorGroup 1 [[(10%Z, 2)]] (mkArr [] [0]%Z) (None : option (bool * ndarray Q)) = Raise IndexError /\
  EnumFactorGroup 1 [] (mkArr [] [0]%Z) (None : option (bool * ndarray Q)) = Raise ValueError.
Proof. split; reflexivity. Qed.

Example C12_nonvacuous :
  let vars := [[(10%Z, 2); (11%Z, 2)]; [(11%Z, 2); (12%Z, 2)]] in
  let cfg := mkArr [2; 2] [0; 0; 1; 1]%Z in
  (exists g, EnumFactorGroup 1 vars cfg (Some (true, mkArr [2] [inject_Z 3; inject_Z 4])) = Ok g /\
     fg_log_potentials g = map inject_Z [3; 4; 3; 4]%Z) /\
  (exists g, EnumFactorGroup 1 vars cfg (Some (true, mkArr [2; 2] (map inject_Z [3; 4; 5; 6]%Z))) = Ok g /\
     fg_log_potentials g = map inject_Z [3; 4; 5; 6]%Z) /\
  EnumFactorGroup 1 vars cfg (Some (true, mkArr [4] (map inject_Z [3; 4; 5; 6]%Z))) = Raise ValueError.
Proof. split; [eexists; split; reflexivity|]. split; [eexists; split; reflexivity|]. reflexivity. Qed.

(** Configurations are not validated: a configuration with an illegal state is accepted by
    the group although the factor itself is rejected, and compiles (here state 2 of the
    2-state first variable is edge state 2, the first state of the second variable). *)
Theorem C12_configs_validated_refuted :
  exists (vars : list (list variable)) (configs : ndarray Z) (g : fgroup Q) (w : enum_wiring),
    EnumFactorGroup 1 vars configs None = Ok g /\
    (forall vs n, In vs vars -> ~ legal_configs vs configs n) /\
    fg_compile_enum (fun _ => 0%Z) g [((10%Z, 2), 0); ((11%Z, 2), 2)] = Ok w /\
    ew_factor_configs_edge_states w = [(0, 2); (0, 2)]%Z.
Proof.
  exists [[(10%Z, 2); (11%Z, 2)]], (mkArr [1; 2] [2; 0]%Z). eexists. eexists.
  split; [reflexivity|]. split; [|split; reflexivity].
  intros vs n [<-|[]] [Hs Hl]. injection Hs as <-.
  specialize (Hl 0 0 (10%Z, 2) (Nat.lt_0_succ 0) eq_refl). destruct Hl as [_ Hl]. vm_compute in Hl. discriminate.
Qed.
Print Assumptions C12_configs_validated_refuted.

(** ** C13: PairwiseFactorGroup *)
Theorem C13_pairwise_group :
  forall (A : Type) (NA : Num A) (junk : nat -> A) id vars (mat : option (bool * ndarray A)),
  (match mat with Some (_, p) => wf_arr p | None => True end) ->
  let r := PairwiseFactorGroup junk id vars mat in
  (forall g, r = Ok g -> exists n m, matrix_fits vars mat n m /\ pair_vars vars n m /\
     fg_id g = id /\ fg_kind g = KPairwise n m /\ fg_type g = TEnum /\ fg_vars g = vars /\
     fg_configs g = pair_grid n m /\ length (fg_log_potentials g) = length vars * (n * m) /\
     forall f i j d, f < length vars -> i < n -> j < m ->
       nth (f * (n * m) + (i * m + j)) (fg_log_potentials g) d = matrix_entry mat n m f i j d) /\
  ((exists g, r = Ok g) <-> vars <> [] /\ exists n m, matrix_fits vars mat n m /\ pair_vars vars n m) /\
  (forall e, r = Raise e ->
     e = ValueError \/ e = IndexError /\ mat = None /\ length (nth 0 vars []) < 2).
Proof. exact (fun A NA => @PairwiseFactorGroup_spec A NA). Qed.
Print Assumptions C13_pairwise_group.

(** Row [i * m + j] of the configurations is [(i, j)]; every row is of this form. *)
Theorem C13_grid :
  forall n m,
  shape (pair_grid n m) = [n * m; 2] /\ length (data (pair_grid n m)) = n * m * 2 /\
  (forall i j, i < n -> j < m ->
     config_at (pair_grid n m) 2 (i * m + j) 0 = Z.of_nat i /\
     config_at (pair_grid n m) 2 (i * m + j) 1 = Z.of_nat j) /\
  (forall r, r < n * m -> exists i j, i < n /\ j < m /\ r = i * m + j /\
     forall i' j', i' < n -> j' < m -> r = i' * m + j' -> i' = i /\ j' = j).
Proof. exact pair_grid_spec. Qed.
Print Assumptions C13_grid.

Example C13_nonvacuous :
  let vars := [[(10%Z, 2); (11%Z, 3)]; [(12%Z, 2); (13%Z, 3)]] in
  exists g, PairwiseFactorGroup (fun _ => inject_Z 99) 1 vars
              (Some (true, mkArr [2; 3] (map inject_Z [1; 2; 3; 4; 5; 6]%Z))) = Ok g /\
    fg_log_potentials g = map inject_Z [1; 2; 3; 4; 5; 6; 1; 2; 3; 4; 5; 6]%Z /\
    data (fg_configs g) = [0; 0; 0; 1; 0; 2; 1; 0; 1; 1; 1; 2]%Z.
Proof. eexists. split; [reflexivity|]. split; reflexivity. Qed.

(** ** C14: flatten and unflatten of factor groups *)
Theorem C14_enum_round_trip :
  forall (A : Type) (g : fgroup A) (d : ndarray A) nc,
  valid_group g -> distinct_sets (fg_vars g) -> fg_vars g <> [] -> fg_kind g = KEnum -> wf_arr d ->
  nth 0 (shape (fg_configs g)) 0 = nc ->
  let nf := length (fg_vars g) in
  let ne := list_sum (map snd (nth 0 (fg_vars g) [])) in
  ((exists f, fg_flatten g d = Ok f) <->
     shape d = [nf; nc] \/ shape d = [nf; ne] \/ shape d = [nc]) /\
  (forall e, fg_flatten g d = Raise e -> e = ValueError) /\
  (shape d = [nf; nc] \/ shape d = [nf; ne] ->
     fg_flatten g d = Ok (data d) /\ fg_unflatten g (vec' (data d)) = Ok d) /\
  (shape d = [nc] ->
     exists f d', fg_flatten g d = Ok f /\ fg_unflatten g (vec' f) = Ok d' /\ shape d' = [nf; nc] /\
       forall i c x, i < nf -> c < nc -> nth (i * nc + c) (data d') x = nth c (data d) x).
Proof. exact (fun A => @C14_enum_lemma A). Qed.
Print Assumptions C14_enum_round_trip.

(** For a pairwise group with n and m states. Messages of shape [nf; n+m] that happen to
    have the shape [n; m] of a shared matrix are taken for one. *)
Theorem C14_pairwise_round_trip :
  forall (A : Type) (g : fgroup A) (d : ndarray A) n m,
  valid_group g -> distinct_sets (fg_vars g) -> fg_vars g <> [] -> fg_kind g = KPairwise n m -> wf_arr d ->
  let nf := length (fg_vars g) in
  ((exists f, fg_flatten g d = Ok f) <->
     shape d = [nf; n; m] \/ shape d = [nf; n + m] \/ shape d = [n; m]) /\
  (forall e, fg_flatten g d = Raise e -> e = ValueError) /\
  (shape d = [nf; n; m] \/ (shape d = [nf; n + m] /\ [nf; n + m] <> [n; m] /\ n * m <> n + m) ->
     fg_flatten g d = Ok (data d) /\ fg_unflatten g (vec' (data d)) = Ok d) /\
  (shape d = [nf; n + m] -> [nf; n + m] <> [n; m] -> n * m = n + m ->
     fg_flatten g d = Ok (data d) /\ fg_unflatten g (vec' (data d)) = Ok (mkArr [nf; n; m] (data d))) /\
  (shape d = [n; m] ->
     exists f d', fg_flatten g d = Ok f /\ fg_unflatten g (vec' f) = Ok d' /\ shape d' = [nf; n; m] /\
       forall k c x, k < nf -> c < n * m -> nth (k * (n * m) + c) (data d') x = nth c (data d) x).
Proof. exact (fun A => @C14_pair_lemma A). Qed.
Print Assumptions C14_pairwise_round_trip.

(** The ambiguous sizes. *)
Theorem C14_ambiguous_sizes :
  forall n m, n * m = n + m <-> (n = 2 /\ m = 2) \/ (n = 0 /\ m = 0).
Proof. exact pair_ambiguous. Qed.
Print Assumptions C14_ambiguous_sizes.

Example C14_nonvacuous :
  let vars := [[(10%Z, 2); (11%Z, 2)]; [(11%Z, 2); (12%Z, 2)]] in
  exists g, PairwiseFactorGroup (fun _ => inject_Z 99) 1 vars None = Ok g /\
    valid_group g /\ distinct_sets (fg_vars g) /\ fg_kind g = KPairwise 2 2 /\
    (let d := map inject_Z [1; 2; 3; 4; 5; 6; 7; 8]%Z in
     fg_flatten g (mkArr [2; 4] d) = Ok d /\
     fg_unflatten g (vec' d) = Ok (mkArr [2; 2; 2] d)).
Proof.
  eexists. split; [reflexivity|]. split; [|split; [|split; [reflexivity|split; reflexivity]]].
  - exists 4. split; [reflexivity|]. intros vs Hin. split.
    + destruct Hin as [<-|[<-|[]]]; reflexivity.
    + intros r u x Hr Hu. assert (Hx : snd x = 2 /\ length vs = 2 /\ u < 2).
      { assert (u < length vs) by (apply nth_error_Some; congruence). apply nth_error_In in Hu.
        destruct Hin as [<-|[<-|[]]]; simpl in *; destruct Hu as [<-|[<-|[]]]; auto. }
      destruct Hx as [-> [-> Hu2]].
      destruct r as [|[|[|[|r]]]]; [| | | |lia]; destruct u as [|[|u]]; try lia; vm_compute; split; congruence.
  - constructor; [|repeat constructor]. constructor; [|constructor].
    intros H. destruct (H (10%Z, 2)) as [H1 _]. destruct (H1 (or_introl eq_refl)) as [E|[E|[]]]; discriminate.
Qed.

(** ** C15: factor lookup *)
Theorem C15_lookup :
  forall (A : Type) (g : fgroup A),
  valid_group g -> distinct_sets (fg_vars g) ->
  (forall q i vs, nth_error (fg_vars g) i = Some vs -> same_set q vs ->
     exists f, fg_getitem g q = Ok f /\ is_factor g i f) /\
  (forall q, (forall vs, In vs (fg_vars g) -> ~ same_set q vs) -> fg_getitem g q = Raise ValueError).
Proof. exact (fun A => @C15_lemma A). Qed.
Print Assumptions C15_lookup.

(** The factors of a group, in order. *)
Theorem C15_factors :
  forall (A : Type) (g : fgroup A),
  valid_group g -> distinct_sets (fg_vars g) ->
  exists fs, fg_factors g = Ok fs /\ length fs = length (fg_vars g) /\
    forall i f, nth_error fs i = Some f -> is_factor g i f.
Proof. exact (fun A => @fg_factors_valid A). Qed.
Print Assumptions C15_factors.

Example C15_nonvacuous :
  let a := (10%Z, 2) in let b := (11%Z, 2) in let c := (12%Z, 2) in
  exists g : fgroup Q, LogicalFactorGroup TOr 1 [[a; b]; [b; c; a]] = Ok g /\
    valid_group g /\ distinct_sets (fg_vars g) /\
    fg_getitem g [b; a] = Ok (FLogical {| lf_type := TOr; lf_variables := [a; b] |}) /\
    fg_getitem g [a; c; b] = Ok (FLogical {| lf_type := TOr; lf_variables := [b; c; a] |}) /\
    fg_getitem g [a; c] = Raise ValueError.
Proof.
  eexists. split; [reflexivity|]. split; [|split; [|repeat split; reflexivity]].
  - intros vs [<-|[<-|[]]]; (split; [simpl; lia|]); intros x Hx; simpl in Hx;
      repeat (destruct Hx as [<-|Hx]; [reflexivity|]); destruct Hx.
  - constructor; [|repeat constructor]. constructor; [|constructor].
    intros H. destruct (H (12%Z, 2)) as [_ H2].
    destruct (H2 (or_intror (or_introl eq_refl))) as [E|[E|[]]]; discriminate.
Qed.
