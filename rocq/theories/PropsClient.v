(** * C69: inference is available on exactly the graphs that compile, and stays available. *)
From Verif Require Import NumPy Lists FGroup FGraph BPState BP SpecFGraph SpecFactor SpecWiring SpecState SpecText SpecBeliefs SpecClient.
From Verif Require Import LemClient PropsEvidence PropsState ExBP PropsBeliefs.
From Coq Require Import Reals QArith Lia.
Local Open Scope nat_scope.

(** Which graphs compile, and how the others fail. The groups were passed as a list. *)
Theorem C69_compiles :
  forall (A : Type) vgs (g : fgraph A), groups_ok vgs -> reachable vgs g -> wf_groups (gr_groups g) -> gr_is_list g = true ->
  forall junk,
  ((exists st, compile_fg_state junk g = Ok st) <-> compilable vgs (gr_groups g)) /\
  (~ (forall x, In x (all_edges (gr_groups g)) -> In x (all_vars vgs)) -> compile_fg_state junk g = Raise KeyError) /\
  ((forall x, In x (all_edges (gr_groups g)) -> In x (all_vars vgs)) -> ~ Forall has_rows (pt_enum (gr_groups g)) ->
     compile_fg_state junk g = Raise IndexError) /\
  ((forall x, In x (all_edges (gr_groups g)) -> In x (all_vars vgs)) -> Forall has_rows (pt_enum (gr_groups g)) ->
     ~ (all_but_last_single (map fg_vars (pt_or (gr_groups g))) /\ all_but_last_single (map fg_vars (pt_and (gr_groups g)))) ->
     compile_fg_state junk g = Raise ValueError).
Proof. exact (fun A => @C69_compiles_lemma A). Qed.
Print Assumptions C69_compiles.

(** On a compiled graph BP accepts every state a client can obtain, unless the graph has no
    factors. *)
Theorem C69_available :
  forall (A : Type) (HN : Num A) vgs (g : fgraph A), groups_ok vgs -> reachable vgs g -> wf_groups (gr_groups g) -> gr_is_list g = true ->
  forall junk st k bs T, compile_fg_state junk g = Ok st -> obtained (k, st) (OState bs) ->
  (all_groups (gr_groups g) = [] -> BP bs T = Raise ValueError) /\
  (all_groups (gr_groups g) <> [] -> exists c, BP bs T = Ok c /\ bc_state c = bs /\
     exists a, bp_init c None None None = Ok a /\ obtained (k, st) (OArrays a)).
Proof. exact (fun A HN => @C69_available_lemma A HN). Qed.
Print Assumptions C69_available.
Theorem C69_exists :
  forall (A : Type) (HN : Num A) vgs (g : fgraph A), groups_ok vgs -> reachable vgs g -> wf_groups (gr_groups g) -> gr_is_list g = true ->
  forall T, (exists c, bp_of g T c) <-> compilable vgs (gr_groups g) /\ all_groups (gr_groups g) <> [].
Proof. exact (fun A HN => @C69_exists_lemma A HN). Qed.
Print Assumptions C69_exists.

(** Whatever a client does, the arrays keep the sizes of the graph's, and the parts of a
    state belong to the same graph. *)
Theorem C69_fits :
  forall (A : Type) (HN : Num A) junk (g : fgraph A) k st o,
  compile_fg_state junk g = Ok st -> wf_groups (gr_groups g) -> obtained (k, st) o ->
  match o with
  | OState bs => c_state (bs_log_potentials bs) = (k, st) /\ c_state (bs_ftov_msgs bs) = (k, st) /\ c_state (bs_evidence bs) = (k, st) /\
      length (c_value (bs_log_potentials bs)) = length (st_log_potentials st) /\
      length (c_value (bs_ftov_msgs bs)) = st_total_factor_num_states st /\
      length (c_value (bs_evidence bs)) = st_num_var_states st
  | OArrays a => length (ba_log_potentials a) = length (st_log_potentials st) /\
      length (ba_ftov_msgs a) = st_total_factor_num_states st /\ length (ba_evidence a) = st_num_var_states st
  end.
Proof. exact (fun A HN => @C69_fits_lemma A HN). Qed.
Print Assumptions C69_fits.

(** So the hypotheses of the theorems about runs hold for everything a client can obtain,
    and to_bp_state does not raise. *)
Theorem C69_ready :
  forall (A : Type) (HN : Num A) junk (g : fgraph A) k st,
  wf_groups (gr_groups g) -> compile_fg_state junk g = Ok st ->
  forall T bs a, obtained (k, st) (OState bs) -> obtained (k, st) (OArrays a) ->
  bs_fg_state bs = st /\
  forall c, BP bs T = Ok c -> bp_of g T c /\ arrays_of c a /\ exists bs', to_bp_state c a = Ok bs'.
Proof. exact (fun A HN => @C69_ready_lemma A HN). Qed.
Print Assumptions C69_ready.

(** Nor do the beliefs, the MAP states and the marginals. *)
Theorem C69_results :
  forall vgs (g : fgraph R) junk k st T bs a c,
  groups_ok vgs -> reachable vgs g -> wf_groups (gr_groups g) -> compile_fg_state junk g = Ok st ->
  (forall gr n, In gr vgs -> In n (vg_num_states gr) -> 0 < n) -> (forall gr, In gr vgs -> one_state gr = false) ->
  obtained (k, st) (OState bs) -> obtained (k, st) (OArrays a) -> BP bs T = Ok c ->
  exists b r p, get_beliefs c a = Ok b /\ decode_map_states b = Ok r /\ get_marginals b = Ok p /\
    map fst b = vgs /\ map fst r = vgs /\ map fst p = vgs.
Proof. exact C69_results_lemma. Qed.
Print Assumptions C69_results.

(** The graph of the examples: evidence is assigned, the functions for temperature 0 are
    run, the result becomes a state again and is used at temperature 0 with further
    updates. *)
Example C69_nonvacuous :
  groups_ok ex_gs /\ reachable ex_gs y_graph /\ wf_groups (gr_groups y_graph) /\ gr_is_list y_graph = true /\
  all_groups (gr_groups y_graph) <> [] /\
  exists st bs a, compile_fg_state (fun _ => 0%Z) y_graph = Ok st /\ obtained (3, st) (OState bs) /\ obtained (3, st) (OArrays a) /\
    map Qred (c_value (bs_evidence bs)) = map q [5; 6; 0; 0; 0; 0; 0]%Z /\
    map Qred (ba_evidence a) = map q [5; 6; 0; 0; 0; 1; 2]%Z /\ length (ba_ftov_msgs a) = 18.
Proof.
  split; [exact ex_gs_ok|]. split; [exact y_reach|]. split; [exact y_wf|]. split; [reflexivity|]. split; [discriminate|].
  destruct y_compiles as [st [Hc _]]. vm_compute in Hc.
  match type of Hc with Ok ?s = _ => pose proof (ob_new (3, s) None None None _ _ _ _ I I I eq_refl eq_refl eq_refl eq_refl) as O0 end.
  pose proof (ob_set_evidence _ _ (EVar ya) (DArr (mkArr [2] (map q [5; 6]%Z))) _ O0 eq_refl) as O1.
  pose proof (ob_init _ _ (q 0) _ None None None _ O1 eq_refl eq_refl) as O2.
  pose proof (ob_run _ _ (q 0) _ _ 2 (q 0) O1 eq_refl O2) as O3.
  pose proof (ob_update _ _ (q 0) _ _ None None (Some [(EVar yc, DArr (mkArr [2] (map q [1; 2]%Z)))]) _ O1 eq_refl O3 eq_refl) as O4.
  do 3 eexists. split; [vm_compute; reflexivity|]. split; [exact O1|]. split; [exact O4|]. vm_compute. auto.
Qed.

(** A graph without factors compiles, but BP rejects its state. A factor on a variable of
    no group is found when the graph compiles. *)
Example C69_errors_nonvacuous :
  (exists st bs, compile_fg_state (fun _ => 0%Z) (FactorGraph (GsList ex_gs) : fgraph Q) = Ok st /\ default_bp_state (0, st) = Ok bs /\
     BP bs (q 0) = Raise ValueError) /\
  (let h := {| fg_id := 3; fg_kind := KLogical; fg_type := TOr; fg_vars := [[ya; (7%Z, 2)]]; fg_configs := mkArr [] []; fg_log_potentials := [] |} in
   let g := fst (add_factors (AGroup h) (FactorGraph (GsList ex_gs) : fgraph Q)) in
   wf_groups (gr_groups g) /\ ~ (forall x, In x (all_edges (gr_groups g)) -> In x (all_vars ex_gs)) /\
   compile_fg_state (fun _ => 0%Z) g = Raise KeyError).
Proof.
  split; [do 2 eexists; split; [vm_compute; reflexivity|split; vm_compute; reflexivity]|]. cbv zeta. split; [|split; [|reflexivity]].
  - intros t h Hh. destruct t; cbn in Hh; [contradiction| |contradiction]. destruct Hh as [<-|[]]. split; [reflexivity|]. split; [|discriminate].
    intros vs [<-|[]]. split; [simpl; lia|]. intros x [<-|[<-|[]]]; reflexivity.
  - intros K. assert (X := K (7%Z, 2)). vm_compute in X. intuition discriminate.
Qed.

Example C69_results_nonvacuous : forall T, exists junk st bs a c,
  compile_fg_state junk ex_g = Ok st /\ obtained (0, st) (OState bs) /\ obtained (0, st) (OArrays (run_bp c a 3 0.5%R)) /\ BP bs T = Ok c.
Proof.
  intros T. destruct (ex_given T) as [H1 [H2 [H3 [H4 _]]]].
  assert (Hl : gr_is_list ex_g = true) by reflexivity.
  destruct (proj1 (C69_exists R _ ex_vgs ex_g H1 H2 H3 Hl T) (ex_intro _ _ H4)) as [Hc Hg].
  destruct (proj2 (proj1 (C69_compiles R ex_vgs ex_g H1 H2 H3 Hl (fun _ => 0%Z))) Hc) as [st Hst].
  pose proof (ob_new (0, st) None None None _ _ _ _ I I I eq_refl eq_refl eq_refl eq_refl) as O0.
  destruct (C69_available R _ ex_vgs ex_g H1 H2 H3 Hl _ st 0 _ T Hst O0) as [_ S]. destruct (S Hg) as [c [HB [_ [a [_ Oa]]]]].
  exists (fun _ => 0%Z), st. eexists. exists a, c. split; [exact Hst|]. split; [exact O0|]. split; [|exact HB].
  exact (ob_run _ _ T c a 3 0.5%R O0 HB Oa).
Qed.
