(** * Examples for property C52. *)
From Verif Require Import FGraph BPState BP Jit SpecVGroup SpecFGraph SpecFactor SpecText SpecJit.
From Verif Require Import LemJit PropsEvidence PropsState.
From Coq Require Import Lia QArith.
Local Close Scope Q_scope.
Local Open Scope nat_scope.

(** A group with id 2 and its only variable: the hash of the group is the larger one. *)
Definition ex_overlap : list (ev_key * gdata Z) :=
  [(EGroup (VD ex_vd), DMap [(7%Z, mkArr [2] [30; 31]%Z)]); (EVar (2000000000%Z, 2), DArr (mkArr [2] [8; 9]%Z))].
Lemma ex_overlap_good : Forall (good_write ex_gs) ex_overlap.
Proof.
  constructor; [|constructor; [|constructor]].
  - split; [right; now left|]. split; [discriminate|]. split; [|split].
    + intros x a [E|[]]. injection E as <- <-. now left.
    + intros x a i [E|[]] Hi. injection E as <- <-. destruct i as [|[|i]]; [now split|discriminate|discriminate].
    + intros x [<-|[]]. eexists. reflexivity.
  - split; [right; right; now left|]. now split.
Qed.
Lemma last_wins_refuted :
  ~ forall srt (A : Type) gs (g : fgraph A) junk st (ev : list A) us,
    sorts srt -> groups_ok gs -> reachable gs g -> compile_fg_state junk g = Ok st ->
    length ev = st_num_var_states st -> Forall (good_write gs) us -> NoDup (map fst us) ->
    jit_update_evidence srt hash_pair st ev us = update_evidence st ev us.
Proof.
  intros H.
  assert (Hc : exists st, compile_fg_state (fun _ => 0%Z) (@FactorGraph Z (GsList ex_gs)) = Ok st) by (eexists; vm_compute; reflexivity).
  destruct Hc as [st Hc].
  assert (F : jit_update_evidence py_sort hash_pair st (repeat 0%Z 7) ex_overlap = update_evidence st (repeat 0%Z 7) ex_overlap).
  { apply (H py_sort Z ex_gs (FactorGraph (GsList ex_gs)) (fun _ => 0%Z)); [exact py_sort_sorts|exact ex_gs_ok|now apply reach_new|exact Hc| |exact ex_overlap_good|].
    - vm_compute in Hc. injection Hc as <-. reflexivity.
    - constructor; [intros [E|[]]; discriminate|]. constructor; [intros []|constructor]. }
  vm_compute in Hc. injection Hc as <-. vm_compute in F. discriminate.
Qed.

(** Two groups, given to the graph in the order of decreasing hashes. *)
Definition j_vd : vdict := {| vd_id := 5; vd_names := [9; 7]%Z; vd_num_states := [2; 3] |}.
Definition j_va : varray := {| va_id := 3; va_shape := [1]; va_num_states := [2] |}.
Definition j_gs : list vgroup := [VD j_vd; VA j_va].
Definition j_pair : fgroup Q :=
  {| fg_id := 1; fg_kind := KPairwise 2 2; fg_type := TEnum; fg_vars := [[(3000000000%Z, 2); nth 0 (vg_variables (VD j_vd)) (0%Z, 0)]];
     fg_configs := mkArr [4; 2] [0; 0; 0; 1; 1; 0; 1; 1]%Z; fg_log_potentials := map q [7; 8; 9; 10]%Z |}.
Definition j_graph : fgraph Q := fst (add_factors (AList [AGroup j_pair]) (FactorGraph (GsList j_gs))).
Definition j_arrays : bp_arrays Q :=
  {| ba_log_potentials := map q [7; 8; 9; 10]%Z; ba_ftov_msgs := map q [0; -1; -2; 0]%Z;
     ba_evidence := map q [1; 0; 5; 4; 6; 0; 3]%Z |}.
