(** * A graph for the examples about belief propagation: two enumeration factors, an OR
    and an AND factor on four binary variables and one with three states. The potentials
    are [p] of integers, for any function [p]. *)
From Verif Require Import FGraph BPState BP Lists SpecVGroup SpecFactor SpecFGraph SpecAdd SpecWiring SpecState SpecBP SpecText.
From Verif Require Import LemFGraph LemGraph LemNum.
From Coq Require Import Lia QArith Reals Lra.
Local Close Scope Q_scope.
Local Close Scope R_scope.
Local Open Scope nat_scope.

Definition ex_vg : varray := {| va_id := 1; va_shape := [5]; va_num_states := [2; 2; 2; 2; 3] |}.
Definition ex_vgs : list vgroup := [VA ex_vg].
Definition b0 : variable := (1000000000%Z, 2).
Definition b1 : variable := (1000000001%Z, 2).
Definition b2 : variable := (1000000002%Z, 2).
Definition b3 : variable := (1000000003%Z, 2).
Definition b4 : variable := (1000000004%Z, 3).
Section Graph.
  Context {A : Type} (p : Z -> A).
  Definition ex_enum : fgroup A :=
    {| fg_id := 1; fg_kind := KEnum; fg_type := TEnum; fg_vars := [[b0; b4]; [b1; b4]];
       fg_configs := mkArr [4; 2] [0; 0; 0; 2; 1; 1; 1; 2]%Z; fg_log_potentials := map p [1; -2; 3; 0; 4; -1; 2; 2]%Z |}.
  Definition ex_or : fgroup A :=
    {| fg_id := 2; fg_kind := KLogical; fg_type := TOr; fg_vars := [[b0; b1; b2]];
       fg_configs := mkArr [] []; fg_log_potentials := [] |}.
  Definition ex_and : fgroup A :=
    {| fg_id := 3; fg_kind := KLogical; fg_type := TAnd; fg_vars := [[b1; b2; b3]];
       fg_configs := mkArr [] []; fg_log_potentials := [] |}.
  Definition ex_graph : fgraph A :=
    fst (add_factors (AList [AGroup ex_and; AGroup ex_enum; AGroup ex_or]) (FactorGraph (GsList ex_vgs))).
  Definition ex_groups : per_type (list (fgroup A)) := PT [ex_enum] [ex_or] [ex_and].
  Definition ex_state : fg_state A :=
    ltac:(let r := eval vm_compute in (compile_fg_state (fun _ => 0%Z) ex_graph) in
          match r with Ok ?s => exact s end).
  Lemma ex_compiles : compile_fg_state (fun _ => 0%Z) ex_graph = Ok ex_state.
  Proof. vm_compute. reflexivity. Qed.
  Lemma ex_reach : reachable ex_vgs ex_graph.
  Proof. apply reach_add, reach_new. reflexivity. Qed.
  Lemma ex_wf : wf_groups (gr_groups ex_graph).
  Proof.
    intros t g Hg. change (gr_groups ex_graph) with ex_groups in Hg.
    destruct t; cbn in Hg; destruct Hg as [<-|[]].
    - split; [reflexivity|]. split; [|discriminate]. exists 4. split; [reflexivity|].
      intros vs Hvs. split; [destruct Hvs as [<-|[<-|[]]]; reflexivity|].
      intros r u x Hr Hu.
      assert (Hu2 : u < 2) by (assert (E : length vs = 2) by (destruct Hvs as [<-|[<-|[]]]; reflexivity); rewrite <- E; apply nth_error_Some; congruence).
      destruct Hvs as [<-|[<-|[]]]; destruct r as [|[|[|[|]]]]; try lia; destruct u as [|[|]]; try lia; injection Hu as <-; vm_compute; split; congruence.
    - split; [reflexivity|]. split; [|discriminate]. intros vs [<-|[]]. split; [simpl; lia|]. intros x [<-|[<-|[<-|[]]]]; reflexivity.
    - split; [reflexivity|]. split; [|discriminate]. intros vs [<-|[]]. split; [simpl; lia|]. intros x [<-|[<-|[<-|[]]]]; reflexivity.
  Qed.
  Context `{Num A}.
  Lemma ex_built :
    EnumFactorGroup 1 [[b0; b4]; [b1; b4]] (mkArr [4; 2] [0; 0; 0; 2; 1; 1; 1; 2]%Z)
      (Some (true, mkArr [2; 4] (map p [1; -2; 3; 0; 4; -1; 2; 2]%Z))) = Ok ex_enum /\
    LogicalFactorGroup TOr 2 [[b0; b1; b2]] = Ok ex_or /\ LogicalFactorGroup TAnd 3 [[b1; b2; b3]] = Ok ex_and /\
    gr_groups ex_graph = ex_groups.
  Proof. repeat split. Qed.
  Definition ex_bs : bp_state A :=
    {| bs_log_potentials := {| c_state := (5, ex_state); c_value := st_log_potentials ex_state |};
       bs_ftov_msgs := {| c_state := (5, ex_state); c_value := repeat n0 22 |};
       bs_evidence := {| c_state := (5, ex_state); c_value := repeat n0 11 |} |}.
  Lemma ex_bs_default : default_bp_state (5, ex_state) = Ok ex_bs.
  Proof. reflexivity. Qed.
  Definition ex_ctx (T : A) : bp_ctx A :=
    {| bc_state := ex_bs; bc_temperature := T; bc_edges_num_states := [2; 3; 2; 3; 2; 2; 2; 2; 2; 2];
       bc_max_msg_size := 3; bc_var_states_for_edges := [0; 1; 8; 9; 10; 2; 3; 8; 9; 10; 0; 1; 2; 3; 4; 5; 2; 3; 4; 5; 6; 7]%Z |}.
  Lemma ex_bp_of T : bp_of ex_graph T (ex_ctx T).
  Proof. exists (fun _ => 0%Z), ex_bs. split; [exact ex_compiles|reflexivity]. Qed.
  Definition ex_arrays (msgs ev : list A) : bp_arrays A :=
    {| ba_log_potentials := map p [1; -2; 3; 0; 4; -1; 2; 2]%Z; ba_ftov_msgs := msgs; ba_evidence := ev |}.
  Lemma ex_arrays_of T msgs ev : length msgs = 22 -> length ev = 11 -> arrays_of (ex_ctx T) (ex_arrays msgs ev).
  Proof. intros H1 H2. repeat split; assumption. Qed.
  (** The factors of the graph. *)
  Definition ex_fs (zero : A) : list (sfactor A) :=
    [SF [b0; b4] [[0; 0]; [0; 2]; [1; 1]; [1; 2]]%Z (map p [1; -2; 3; 0]%Z);
     SF [b1; b4] [[0; 0]; [0; 2]; [1; 1]; [1; 2]]%Z (map p [4; -1; 2; 2]%Z);
     SF [b0; b1; b2] [[0; 0; 0]; [1; 0; 1]; [0; 1; 1]; [1; 1; 1]]%Z (repeat zero 4);
     SF [b1; b2; b3] [[0; 0; 0]; [1; 0; 0]; [0; 1; 0]; [1; 1; 1]]%Z (repeat zero 4)].
  Lemma ex_factors zero : graph_factors zero (gr_groups ex_graph) = ex_fs zero.
  Proof. reflexivity. Qed.
End Graph.
Lemma ex_vgs_ok : groups_ok ex_vgs.
Proof.
  split; [|split].
  - constructor; [|constructor]. exists 1%Z, (NsIntArray (mkArr [5] [2; 2; 2; 2; 3])), [5]. now split.
  - constructor; [vm_compute; discriminate|constructor].
  - constructor; constructor.
Qed.

(** Values over the reals. *)
Definition ex_ev_z : list Z := [3; 0; -1; 2; 0; 1; -4; 0; 2; -2; 1]%Z.
Definition ex_msgs_z : list Z := [0; -1; 0; -2; -3; -5; 0; 0; -1; 0; 0; -4; -1; 0; 0; -2; 0; 0; -3; 0; 0; -1]%Z.
Definition ex_a : bp_arrays R := ex_arrays IZR (map IZR ex_msgs_z) (map IZR ex_ev_z).
Definition ex_g : fgraph R := ex_graph IZR.
Definition ex_c (T : R) : bp_ctx R := ex_ctx IZR T.
Definition ex_rfs : list (sfactor R) := graph_factors 0%R (gr_groups ex_g).
Lemma ex_given T : groups_ok ex_vgs /\ reachable ex_vgs ex_g /\ wf_groups (gr_groups ex_g) /\ bp_of ex_g T (ex_c T) /\ arrays_of (ex_c T) ex_a.
Proof.
  split; [exact ex_vgs_ok|]. split; [apply ex_reach|]. split; [apply ex_wf|]. split; [apply ex_bp_of|]. now apply ex_arrays_of.
Qed.
