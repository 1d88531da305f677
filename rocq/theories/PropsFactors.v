(** * Property C46: the factors of a graph. *)
From Verif Require Import FGraph FGraphFactors BPState BP Lists SpecVGroup SpecFactor SpecFGraph SpecAdd SpecWiring SpecState SpecFactors.
From Verif Require Import LemFactors PropsEvidence PropsState PropsWorld.
From Coq Require Import Lia QArith.
Local Close Scope Q_scope.
Local Open Scope nat_scope.

(** ** C46: FactorGraph.factors lists the factors that were added *)
(** One factor per entry of the groups' lists, type by type in order of addition, with its
    own variables, configurations and log potentials; no two factors of one type have the
    same set of variables. *)
Theorem C46_factors :
  forall (A : Type) gs (g : fgraph A) p,
  reachable gs g -> gr_factors g = Ok p ->
  Forall2 represents (enum_factors (gr_groups g)) (pt_enum p) /\
  (forall t, t <> TEnum -> Forall2 (fun vs f => f = FLogical {| lf_type := t; lf_variables := vs |})
                                   (logical_factors t (gr_groups g)) (pt_get t p)) /\
  (forall t, map factor_variables (pt_get t p) = factor_sets t g /\ distinct_sets (map factor_variables (pt_get t p))).
Proof. exact (fun A => @C46_lemma A). Qed.
Print Assumptions C46_factors.

(** It succeeds exactly when every factor of every group can be constructed; the only
    error is ValueError. *)
Theorem C46_exact :
  forall (A : Type) gs (g : fgraph A), reachable gs g ->
  ((exists p, gr_factors g = Ok p) <-> (forall h, In h (all_groups (gr_groups g)) -> constructible h)) /\
  (forall e, gr_factors g = Raise e -> e = ValueError).
Proof. exact (fun A => @C46_exact_lemma A). Qed.
Print Assumptions C46_exact.

Example C46_nonvacuous :
  reachable ex_gs y_graph /\
  (exists p, gr_factors y_graph = Ok p /\ map (map factor_variables) (pt_values p) = [[[ya; yt]; [yc; yt]; [ya; yc]]; [[ya; yc]]; []] /\
     exists e, nth_error (pt_enum p) 1 = Some (FEnum e) /\ ef_log_potentials e = map q [4; 5; 6]%Z).
Proof.
  split; [exact y_reach|]. eexists. split; [vm_compute; reflexivity|]. split; [reflexivity|]. eexists. split; reflexivity.
Qed.
(** A group with an illegal state compiles (EnumFactorGroup does not check its
    configurations) but has no factors. *)
Definition y_bad : fgroup Q :=
  {| fg_id := 9; fg_kind := KEnum; fg_type := TEnum; fg_vars := [[ya; yc]];
     fg_configs := mkArr [1; 2] [0; 2]%Z; fg_log_potentials := map q [0]%Z |}.
Example C46_exact_nonvacuous :
  let g := fst (add_factors (AGroup y_bad) (FactorGraph (GsList ex_gs))) in
  reachable ex_gs g /\ (exists s, compile_fg_state j0 g = Ok s) /\ gr_factors g = Raise ValueError.
Proof.
  split; [apply reach_add; now apply reach_new|]. split; [eexists; vm_compute; reflexivity|vm_compute; reflexivity].
Qed.

(** Through the cache, after any history of operations on any graphs (reads of [factors]
    included), reading [factors] gives the factors of the current graph, and reading
    [factor_groups] gives its current groups. *)
Theorem C46_fresh :
  forall (A : Type) (ops : list (fop A)) i g,
  distinct_ids (graphs_after (base_ops ops)) -> nth_error (graphs_after (base_ops ops)) i = Some g ->
  snd (fstep (fworld_after ops) (FFactors i)) = (p <- gr_factors g ;; Ok (RFactors p)) /\
  snd (fstep (fworld_after ops) (FGroups i)) = Ok (RGroups (gr_groups g)).
Proof. exact (fun A => @C46_fresh_lemma A). Qed.
Print Assumptions C46_fresh.

(** Such reads change the result of no other operation. *)
Theorem C46_pure :
  forall (A : Type) (ops : list (fop A)) o,
  snd (fstep (fworld_after ops) (FBase o)) = (x <- snd (step (world_after (base_ops ops)) o) ;; Ok (ROut x)).
Proof. exact (fun A => @C46_pure_lemma A). Qed.
Print Assumptions C46_pure.

(** Graph 0 is read before and after an addition; graph 1 shares the key of the first read. *)
Definition f_ops : list (fop Q) :=
  [FBase (ONew (GsList ex_gs)); FBase (OAdd 0 (AGroup y_enum)); FFactors 0; FBase (ONew (GsList ex_gs));
   FBase (OAdd 0 (AGroup y_or)); FBase (OAdd 1 (AGroup y_enum)); FFactors 1].
Example C46_fresh_nonvacuous :
  distinct_ids (graphs_after (base_ops f_ops)) /\
  length (fw_factors_cache (fworld_after f_ops)) = 1 /\
  (exists p, snd (fstep (fworld_after f_ops) (FFactors 0)) = Ok (RFactors p) /\ length (pt_enum p) = 2 /\ length (pt_or p) = 1) /\
  (exists p, snd (fstep (fworld_after f_ops) (FFactors 1)) = Ok (RFactors p) /\ length (pt_enum p) = 2 /\ length (pt_or p) = 0).
Proof.
  split.
  - apply h_distinct. intros g Hg.
    vm_compute in Hg. destruct Hg as [<-|[<-|[]]]; (split; [reflexivity|]); intros h Hh; vm_compute in Hh; vm_compute; tauto.
  - split; [vm_compute; reflexivity|]. split; eexists; split; [vm_compute; reflexivity|now split|vm_compute; reflexivity|now split].
Qed.
