(** * An acyclic graph for the examples: two enumeration factors and an OR factor. *)
From Verif Require Import FGraph BPState BP Lists SpecVGroup SpecFactor SpecFGraph SpecAdd SpecWiring SpecState SpecBP SpecText SpecTree.
From Verif Require Import LemFGraph LemGraph LemNum LemPerm LemTree ExBP.
From Coq Require Import Lia QArith Reals Lra.
Local Close Scope Q_scope.
Local Close Scope R_scope.
Local Open Scope nat_scope.

(** Checking an order of the factors. *)
Section Check.
  Context {A : Type} (fs : list (sfactor A)) (r : variable).
  Definition leaf_check (act : list nat) (b : nat * nat) : bool :=
    existsb (Nat.eqb (fst b)) act && (snd b <? arity fs (fst b)) &&
    forallb (fun u => (u =? snd b) || negb (var_eqb (var_at fs (fst b) u) r) &&
      forallb (fun g => forallb (fun w => slot_eqb (g, w) (fst b, u) || negb (var_eqb (var_at fs g w) (var_at fs (fst b) u))) (seq 0 (arity fs g))) act)
      (seq 0 (arity fs (fst b))).
  Fixpoint order_check (ord : list (nat * nat)) : bool :=
    match ord with
    | [] => true
    | b :: rest => order_check rest && negb (existsb (Nat.eqb (fst b)) (map fst rest)) && leaf_check (fst b :: map fst rest) b
    end.
  Lemma leaf_check_ok act b : leaf_check act b = true -> leaf fs r act b.
  Proof.
    unfold leaf_check. rewrite !Bool.andb_true_iff, existsb_exists, Nat.ltb_lt, forallb_forall. intros [[[f [Hf Ef]] Hu] H].
    apply Nat.eqb_eq in Ef. split; [split; [now rewrite Ef|exact Hu]|]. intros u Hu' Hne. specialize (H u ltac:(apply in_seq; lia)).
    destruct (Nat.eqb_spec u (snd b)) as [|_]; [contradiction|]. cbn [orb] in H. apply Bool.andb_true_iff in H. destruct H as [H1 H2]. split.
    - intros E. rewrite (proj2 (var_eqb_eq _ _) E) in H1. discriminate.
    - intros [g w] [Hg Hw] E. rewrite forallb_forall in H2. specialize (H2 g Hg). rewrite forallb_forall in H2. specialize (H2 w ltac:(apply in_seq; cbn in Hw; lia)).
      apply Bool.orb_true_iff in H2. destruct H2 as [H2|H2]; [now apply slot_eqb_eq|]. unfold svar in E. cbn [fst snd] in E. rewrite (proj2 (var_eqb_eq _ _) E) in H2. discriminate.
  Qed.
  Lemma good_check ord : order_check ord = true -> good fs r ord.
  Proof.
    induction ord as [|b ord IH]; intros H; [exact I|]. cbn [order_check] in H. rewrite !Bool.andb_true_iff in H. destruct H as [[H1 H2] H3].
    cbn [good]. split; [now apply IH|]. split; [|now apply leaf_check_ok]. intros Hi. apply Bool.negb_true_iff in H2.
    assert (F : existsb (Nat.eqb (fst b)) (map fst ord) = true) by (apply existsb_exists; exists (fst b); split; [exact Hi|apply Nat.eqb_refl]). congruence.
  Qed.
End Check.

Section Graph.
  Context {A : Type} (p : Z -> A).
  Definition tr_or : fgroup A :=
    {| fg_id := 2; fg_kind := KLogical; fg_type := TOr; fg_vars := [[b1; b2; b3]];
       fg_configs := mkArr [] []; fg_log_potentials := [] |}.
  Definition tr_graph : fgraph A :=
    fst (add_factors (AList [AGroup (ex_enum p); AGroup tr_or]) (FactorGraph (GsList ex_vgs))).
  Definition tr_state : fg_state A :=
    ltac:(let r := eval vm_compute in (compile_fg_state (fun _ => 0%Z) tr_graph) in
          match r with Ok ?s => exact s end).
  Lemma tr_compiles : compile_fg_state (fun _ => 0%Z) tr_graph = Ok tr_state.
  Proof. vm_compute. reflexivity. Qed.
  Lemma tr_reach : reachable ex_vgs tr_graph.
  Proof. apply reach_add, reach_new. reflexivity. Qed.
  Lemma tr_wf : wf_groups (gr_groups tr_graph).
  Proof.
    intros t g Hg. change (gr_groups tr_graph) with (PT [ex_enum p] [tr_or] []) in Hg.
    destruct t; cbn in Hg; [destruct Hg as [<-|[]]| |destruct Hg].
    - apply (ex_wf p TEnum). now left.
    - destruct Hg as [<-|[]]. split; [reflexivity|]. split; [|discriminate]. intros vs [<-|[]]. split; [simpl; lia|]. intros x [<-|[<-|[<-|[]]]]; reflexivity.
  Qed.
  Context `{Num A}.
  Lemma tr_built : LogicalFactorGroup TOr 2 [[b1; b2; b3]] = Ok tr_or /\ gr_groups tr_graph = PT [ex_enum p] [tr_or] [].
  Proof. repeat split. Qed.
  Definition tr_bs : bp_state A :=
    {| bs_log_potentials := {| c_state := (5, tr_state); c_value := st_log_potentials tr_state |};
       bs_ftov_msgs := {| c_state := (5, tr_state); c_value := repeat n0 16 |};
       bs_evidence := {| c_state := (5, tr_state); c_value := repeat n0 11 |} |}.
  Lemma tr_bs_default : default_bp_state (5, tr_state) = Ok tr_bs.
  Proof. reflexivity. Qed.
  Definition tr_ctx (T : A) : bp_ctx A :=
    {| bc_state := tr_bs; bc_temperature := T; bc_edges_num_states := [2; 3; 2; 3; 2; 2; 2];
       bc_max_msg_size := 3; bc_var_states_for_edges := [0; 1; 8; 9; 10; 2; 3; 8; 9; 10; 2; 3; 4; 5; 6; 7]%Z |}.
  Lemma tr_bp_of T : bp_of tr_graph T (tr_ctx T).
  Proof. exists (fun _ => 0%Z), tr_bs. split; [exact tr_compiles|reflexivity]. Qed.
  Definition tr_arrays (msgs ev : list A) : bp_arrays A :=
    {| ba_log_potentials := map p [1; -2; 3; 0; 4; -1; 2; 2]%Z; ba_ftov_msgs := msgs; ba_evidence := ev |}.
  Lemma tr_arrays_of T msgs ev : length msgs = 16 -> length ev = 11 -> arrays_of (tr_ctx T) (tr_arrays msgs ev).
  Proof. intros H1 H2. repeat split; assumption. Qed.
  Definition tr_fs (zero : A) : list (sfactor A) :=
    [SF [b0; b4] [[0; 0]; [0; 2]; [1; 1]; [1; 2]]%Z (map p [1; -2; 3; 0]%Z);
     SF [b1; b4] [[0; 0]; [0; 2]; [1; 1]; [1; 2]]%Z (map p [4; -1; 2; 2]%Z);
     SF [b1; b2; b3] [[0; 0; 0]; [1; 0; 1]; [0; 1; 1]; [1; 1; 1]]%Z (repeat zero 4)].
  Lemma tr_factors zero : graph_factors zero (gr_groups tr_graph) = tr_fs zero.
  Proof. reflexivity. Qed.
  (** Removing the OR factor, which meets the others in b1, then the second enumeration
      factor, which meets the first in b4, leaves one factor. *)
  Lemma tr_acyclic zero : acyclic (tr_fs zero).
  Proof.
    apply (good_acyclic (tr_fs zero) b4 [(2, 0); (1, 1); (0, 1)]).
    - apply good_check. vm_compute. reflexivity.
    - intros f Hf. assert (Hf' : f < 3) by exact Hf. destruct f as [|[|[|]]]; cbn; auto. lia.
  Qed.
End Graph.
