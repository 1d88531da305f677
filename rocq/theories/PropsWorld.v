(** * Properties C19 and C44: histories of several graphs sharing the caches. *)
From Verif Require Import FGraph BPState BP Lists SpecVGroup SpecFactor SpecFGraph SpecAdd SpecWiring SpecState.
From Verif Require Import LemWorld PropsEvidence PropsState.
From Coq Require Import Lia QArith.
Local Close Scope Q_scope.
Local Open Scope nat_scope.

(** ** C19: fg_state always reflects the current factors *)
(** After any history of constructions, additions (failing or not) and reads on any number
    of graphs, a read of graph [i] gives what compiling its current content gives; in
    particular it fails exactly when that compilation fails. *)
Theorem C19_fresh :
  forall (A : Type) (ops : list (op A)) i g junk junk',
  no_direct_offsets ops -> distinct_ids (graphs_after ops) -> nth_error (graphs_after ops) i = Some g ->
  let w := world_after ops in
  (forall s, (exists n, snd (step w (OFgState i junk)) = Ok (RState (n, s))) <-> compile_fg_state junk' g = Ok s) /\
  (forall s, (exists n, snd (step w (OBpState i junk)) = Ok (RState (n, s))) <-> compile_fg_state junk' g = Ok s) /\
  (forall v, snd (step w (OWiring i junk)) = Ok (RWiring v) <-> compile_wirings junk' (gr_vars_to_starts g) (gr_groups g) = Ok v) /\
  snd (step w (OLogPotentials i)) = Ok (RLogPotentials (compile_log_potentials (gr_groups g))).
Proof. exact (fun A => @C19_lemma A). Qed.
Print Assumptions C19_fresh.

Definition j0 : nat -> Z := fun _ => 0%Z.
(** Two graphs over the same variables; graph 0 is read early, both get the same group. *)
Definition h_ops : list (op Q) :=
  [ONew (GsList ex_gs); OFgState 0 j0; ONew (GsList ex_gs); OAdd 0 (AGroup y_enum); OBpState 0 j0;
   OAdd 0 (AGroup y_enum); OAdd 1 (AGroup y_enum); OFgState 1 j0; OAdd 1 (AGroup y_or)].
Lemma h_distinct (gs : list (fgraph Q)) :
  (forall g, In g gs -> gr_variable_groups g = ex_gs /\ incl (all_groups (gr_groups g)) [y_enum; y_or; y_pair]) ->
  distinct_ids gs.
Proof.
  intros H. split.
  - intros g g' h h' Hg Hg' Hh Hh' E. apply (proj2 (H g Hg)) in Hh. apply (proj2 (H g' Hg')) in Hh'.
    destruct Hh as [<-|[<-|[<-|[]]]], Hh' as [<-|[<-|[<-|[]]]]; try reflexivity; discriminate.
  - intros g g' v v' Hg Hg' Hv Hv' E. rewrite (proj1 (H g Hg)) in Hv. rewrite (proj1 (H g' Hg')) in Hv'.
    destruct Hv as [<-|[<-|[]]], Hv' as [<-|[<-|[]]]; try reflexivity; discriminate.
Qed.
Example C19_nonvacuous :
  no_direct_offsets h_ops /\ distinct_ids (graphs_after h_ops) /\
  map (fun g => map fg_id (all_groups (gr_groups g))) (graphs_after h_ops) = [[1]; [1; 3]]%Z /\
  (exists s, snd (step (world_after h_ops) (OFgState 1 j0)) = Ok (RState (2, s)) /\ st_total_factor_num_states s = 14) /\
  (exists s, snd (step (world_after h_ops) (OFgState 0 j0)) = Ok (RState (1, s)) /\ st_total_factor_num_states s = 10).
Proof.
  split; [intros i H; simpl in H; intuition discriminate|]. split.
  - apply h_distinct. intros g Hg.
    vm_compute in Hg. destruct Hg as [<-|[<-|[]]]; (split; [reflexivity|]); intros h Hh; vm_compute in Hh; vm_compute; tauto.
  - split; [reflexivity|]. split; eexists; split; vm_compute; reflexivity.
Qed.

(** Calling compute_offsets() directly breaks it: the other graph with the same groups
    finds the key in the cache of compute_offsets and keeps its own old attributes. *)
Definition d_ops : list (op Q) :=
  [ONew (GsList ex_gs); ONew (GsList ex_gs); OFgState 1 j0; OAdd 0 (AGroup y_enum); OAdd 1 (AGroup y_enum);
   OComputeOffsets 0].
Theorem C19_direct_offsets_refuted :
  ~ (forall (ops : list (op Q)) i g junk,
     distinct_ids (graphs_after ops) -> nth_error (graphs_after ops) i = Some g ->
     forall s, (exists n, snd (step (world_after ops) (OFgState i junk)) = Ok (RState (n, s))) -> compile_fg_state junk g = Ok s).
Proof.
  intros H.
  assert (D : distinct_ids (graphs_after d_ops)).
  { apply h_distinct. intros g Hg. vm_compute in Hg.
    destruct Hg as [<-|[<-|[]]]; (split; [reflexivity|]); intros h Hh; vm_compute in Hh; vm_compute; tauto. }
  destruct (nth_error (graphs_after d_ops) 1) as [g|] eqn:Eg; [|discriminate].
  destruct (snd (step (world_after d_ops) (OFgState 1 j0))) as [[|[n s]| |]|e] eqn:Es; try (vm_compute in Es; discriminate).
  specialize (H d_ops 1 g j0 D Eg s (ex_intro _ n Es)).
  apply (f_equal (fun r => match r with Ok s => st_total_factor_num_states s | Raise _ => 99 end)) in H.
  assert (X : st_total_factor_num_states s = 0).
  { transitivity (match snd (step (world_after d_ops) (OFgState 1 j0)) with
                  | Ok (RState (_, s)) => st_total_factor_num_states s | _ => 99 end); [now rewrite Es|vm_compute; reflexivity]. }
  rewrite X in H.
  assert (Y : match nth_error (graphs_after d_ops) 1 with
              | Some g => match compile_fg_state j0 g with Ok s => st_total_factor_num_states s | Raise _ => 99 end
              | None => 99 end = 10) by (vm_compute; reflexivity).
  rewrite Eg in Y. congruence.
Qed.
Print Assumptions C19_direct_offsets_refuted.
(** Without the early read the attributes do not exist at all. *)
Example C19_direct_offsets_attribute_error :
  let ops := [ONew (GsList ex_gs); ONew (GsList ex_gs); OAdd 0 (AGroup y_enum); OAdd 1 (AGroup y_enum); OComputeOffsets 0] in
  snd (step (world_after ops) (OFgState 1 j0)) = Raise AttributeError /\
  exists s, snd (step (world_after ops) (OFgState 0 j0)) = Ok (RState s).
Proof. split; [vm_compute; reflexivity|]. eexists. vm_compute. reflexivity. Qed.

(** ** C44: identity of fg_state objects *)
(** Reads of any graphs at any two times return the same object exactly when the two graphs
    then had the same variable groups and the same factor groups. *)
Theorem C44_identity :
  forall (A : Type) (ops ops' : list (op A)) i j junk junk' o o' n n' s s' g g',
  o = OFgState i junk \/ o = OBpState i junk -> o' = OFgState j junk' \/ o' = OBpState j junk' ->
  nth_error (graphs_after ops) i = Some g -> nth_error (graphs_after (ops ++ [o] ++ ops')) j = Some g' ->
  snd (step (world_after ops) o) = Ok (RState (n, s)) ->
  snd (step (world_after (ops ++ [o] ++ ops')) o') = Ok (RState (n', s')) ->
  (n = n' <-> same_objects g g') /\ (n = n' -> s = s').
Proof. exact (fun A => @C44_identity_lemma A). Qed.
Print Assumptions C44_identity.

(** Without an addition in between, a second read succeeds and returns the same object. *)
Theorem C44_stable :
  forall (A : Type) (ops ops' : list (op A)) i junk junk' o o' so,
  o = OFgState i junk \/ o = OBpState i junk -> o' = OFgState i junk' \/ o' = OBpState i junk' ->
  snd (step (world_after ops) o) = Ok (RState so) -> no_additions i ops' ->
  snd (step (world_after (ops ++ [o] ++ ops')) o') = Ok (RState so).
Proof. exact (fun A => @C44_stable_lemma A). Qed.
Print Assumptions C44_stable.

(** After an addition it returns another object. *)
Theorem C44_addition :
  forall (A : Type) (ops ops1 ops2 : list (op A)) i h junk junk' o o' n n' s s',
  o = OFgState i junk \/ o = OBpState i junk -> o' = OFgState i junk' \/ o' = OBpState i junk' ->
  snd (step (world_after ops) o) = Ok (RState (n, s)) ->
  snd (step (world_after (ops ++ [o] ++ ops1)) (OAdd i (AGroup h))) = Ok RUnit ->
  snd (step (world_after (ops ++ [o] ++ ops1 ++ [OAdd i (AGroup h)] ++ ops2)) o') = Ok (RState (n', s')) ->
  n <> n'.
Proof. exact (fun A => @C44_addition_lemma A). Qed.
Print Assumptions C44_addition.

Example C44_nonvacuous :
  let ops := [ONew (GsList ex_gs); OAdd 0 (AGroup y_enum)] in
  let ops1 := [ONew (GsList ex_gs); OAdd 1 (AGroup y_enum)] in
  (exists s, snd (step (world_after ops) (OFgState 0 j0)) = Ok (RState (0, s)) /\
     snd (step (world_after (ops ++ [OFgState 0 j0] ++ ops1)) (OBpState 0 j0)) = Ok (RState (0, s)) /\
     snd (step (world_after (ops ++ [OFgState 0 j0] ++ ops1)) (OFgState 1 j0)) = Ok (RState (0, s))) /\
  no_additions 0 ops1 /\
  snd (step (world_after (ops ++ [OFgState 0 j0] ++ ops1)) (OAdd 0 (AGroup y_or))) = Ok RUnit /\
  exists s, snd (step (world_after (ops ++ [OFgState 0 j0] ++ ops1 ++ [OAdd 0 (AGroup y_or)] ++ [])) (OFgState 0 j0)) = Ok (RState (1, s)).
Proof.
  cbv zeta. split; [eexists; split; [vm_compute; reflexivity|split; vm_compute; reflexivity]|].
  split; [intros a H; simpl in H; intuition discriminate|]. split; [vm_compute; reflexivity|].
  eexists. vm_compute. reflexivity.
Qed.
