(** * Property C55: order of the variables and configurations of a factor. *)
From Verif Require Import NumPy Lists VGroup FGraph BPState BP SpecVGroup SpecFGraph SpecFactor SpecAdd SpecWiring SpecState SpecBP SpecText SpecBeliefs SpecPerm SpecLocal.
From Verif Require Import LemRun LemPerm LemLocal LemReorder ExBP PropsRun PropsPerm.
From Coq Require Import Reals Lra Lia QArith Permutation.
Local Close Scope Q_scope.
Local Close Scope R_scope.
Local Open Scope nat_scope.

(** ** C55 *)
(** Programs that build graphs from the same factors, each with its variables and its
    configurations listed in any order ([reordered]), obtain the same beliefs. *)
Theorem C55_order :
  forall arg l l' (g g' : fgraph R) T c c' eu a a',
  groups_ok (arg_groups arg) -> (forall fg, In fg (l ++ l') -> valid_group fg /\ fg_vars fg <> []) ->
  built_from arg l g -> built_from arg l' g' ->
  (exists k, Permutation (flat_map (factors_of 0%R) l') k /\ Forall2 reordered (flat_map (factors_of 0%R) l) k) ->
  fresh_bp g T c -> fresh_bp g' T c' -> bp_init c None None eu = Ok a -> bp_init c' None None eu = Ok a' ->
  let fs := graph_factors 0%R (gr_groups g) in
  forall B P D K d n,
  moderate fs (fun f k => nth k (sf_pots (factor_at fs f)) 0%R) (length fs) (read_ev (gr_vars_to_starts g) (ba_evidence a)) B P D K ->
  (0 <= T)%R -> (0 <= d <= 1)%R -> supported (map snd (sf_edges fs)) ->
  get_beliefs c' (run_bp c' a' n d) = get_beliefs c (run_bp c a n d).
Proof. exact C55_order_lemma. Qed.
Print Assumptions C55_order.

(** The same for two graphs however they were built. *)
Theorem C55_graphs :
  forall vgs (g g' : fgraph R) T c c' eu a a',
  groups_ok vgs -> reachable vgs g -> reachable vgs g' -> wf_groups (gr_groups g) -> wf_groups (gr_groups g') ->
  let fs := graph_factors 0%R (gr_groups g) in
  let fs' := graph_factors 0%R (gr_groups g') in
  (exists l, Permutation fs' l /\ Forall2 reordered fs l) ->
  fresh_bp g T c -> fresh_bp g' T c' -> bp_init c None None eu = Ok a -> bp_init c' None None eu = Ok a' ->
  forall B P D K d n,
  moderate fs (fun f k => nth k (sf_pots (factor_at fs f)) 0%R) (length fs) (read_ev (gr_vars_to_starts g) (ba_evidence a)) B P D K ->
  (0 <= T)%R -> (0 <= d <= 1)%R -> supported (map snd (sf_edges fs)) ->
  get_beliefs c' (run_bp c' a' n d) = get_beliefs c (run_bp c a n d).
Proof. exact C55_graphs_lemma. Qed.
Print Assumptions C55_graphs.

(** Rearranging the parents of an OR or AND factor is such a change. *)
Theorem C55_parents :
  forall (A : Type) (z : A) t ps ps' ch, Permutation ps ps' ->
  reordered (logical_sf z t (ps ++ [ch])) (logical_sf z t (ps' ++ [ch])).
Proof. exact (fun A => @reordered_parents A). Qed.
Print Assumptions C55_parents.

(** So is rearranging the variables of an enumeration factor, with the columns of its
    configurations, and listing the configurations with their potentials in another order. *)
Theorem C55_columns :
  forall (A : Type) vs cfgs cfgs' (pots pots' : list A) i,
  perm_below (length vs) i -> Permutation (combine cfgs pots) (combine cfgs' pots') ->
  reordered (SF vs cfgs pots)
    (SF (map (fun j => nth (i j) vs (0%Z, 0)) (seq 0 (length vs))) (map (fun c => map (fun j => nth (i j) c 0%Z) (seq 0 (length vs))) cfgs') pots').
Proof. exact (fun A => @reordered_columns A). Qed.
Print Assumptions C55_columns.

(** The example graph with [b4] first in its factors, configurations listed from the last to
    the first, and other orders of the parents. *)
Section Reordered.
  Context {A : Type} (p : Z -> A).
  Definition ex5_enum : fgroup A :=
    {| fg_id := 41; fg_kind := KEnum; fg_type := TEnum; fg_vars := [[b4; b0]; [b4; b1]];
       fg_configs := mkArr [4; 2] [2; 1; 1; 1; 2; 0; 0; 0]%Z; fg_log_potentials := map p [0; 3; -2; 1; 2; 2; -1; 4]%Z |}.
  Definition ex5_or : fgroup A :=
    {| fg_id := 42; fg_kind := KLogical; fg_type := TOr; fg_vars := [[b1; b0; b2]];
       fg_configs := mkArr [] []; fg_log_potentials := [] |}.
  Definition ex5_and : fgroup A :=
    {| fg_id := 43; fg_kind := KLogical; fg_type := TAnd; fg_vars := [[b2; b1; b3]];
       fg_configs := mkArr [] []; fg_log_potentials := [] |}.
  Definition ex5_list : list (fgroup A) := [ex5_and; ex5_enum; ex5_or].
  Definition ex5_graph : fgraph A := fst (add_factors (AList (map AGroup ex5_list)) (FactorGraph (GsList ex_vgs))).
  Definition ex5_state : fg_state A :=
    ltac:(let r := eval vm_compute in (compile_fg_state (fun _ => 0%Z) ex5_graph) in
          match r with Ok ?s => exact s end).
  Lemma ex5_compiles : compile_fg_state (fun _ => 0%Z) ex5_graph = Ok ex5_state.
  Proof. vm_compute. reflexivity. Qed.
End Reordered.
Lemma ex5_built : built_from (GsList ex_vgs) (ex5_list IZR) (ex5_graph IZR).
Proof. reflexivity. Qed.
Lemma ex5_valid fg : In fg (ex_list IZR ++ ex5_list IZR) -> valid_group fg /\ fg_vars fg <> [].
Proof.
  intros H. apply in_app_or in H. destruct H as [H|H]; [apply ex2_valid, in_or_app; now left|].
  cbn [ex5_list In] in H. destruct H as [<-|[<-|[<-|[]]]]; (split; [|discriminate]).
  - intros vs [<-|[]]. split; [simpl; lia|]. intros x [<-|[<-|[<-|[]]]]; reflexivity.
  - exists 4. split; [reflexivity|]. intros vs Hvs. split; [destruct Hvs as [<-|[<-|[]]]; reflexivity|]. intros r u x Hr Hu.
    assert (Hu2 : u < 2) by (assert (E : length vs = 2) by (destruct Hvs as [<-|[<-|[]]]; reflexivity); rewrite <- E; apply nth_error_Some; congruence).
    destruct Hvs as [<-|[<-|[]]]; destruct r as [|[|[|[|]]]]; try lia; destruct u as [|[|]]; try lia; injection Hu as <-; vm_compute; split; congruence.
  - intros vs [<-|[]]. split; [simpl; lia|]. intros x [<-|[<-|[<-|[]]]]; reflexivity.
Qed.
Lemma ex5_reordered : Forall2 reordered (flat_map (factors_of 0%R) (ex_list IZR)) (flat_map (factors_of 0%R) (ex5_list IZR)).
Proof.
  assert (S2 : perm_below 2 (fun u => 1 - u)) by (split; lia).
  constructor; [exact (C55_parents R 0%R TAnd [b1; b2] [b2; b1] b3 (perm_swap b2 b1 []))|].
  constructor; [exact (C55_columns R [b0; b4] _ [[1; 2]; [1; 1]; [0; 2]; [0; 0]]%Z _ (map IZR [0; 3; -2; 1]%Z) (fun u => 1 - u) S2 (Permutation_rev (combine [[0; 0]; [0; 2]; [1; 1]; [1; 2]]%Z (map IZR [1; -2; 3; 0]%Z))))|].
  constructor; [exact (C55_columns R [b1; b4] _ [[1; 2]; [1; 1]; [0; 2]; [0; 0]]%Z _ (map IZR [2; 2; -1; 4]%Z) (fun u => 1 - u) S2 (Permutation_rev (combine [[0; 0]; [0; 2]; [1; 1]; [1; 2]]%Z (map IZR [4; -1; 2; 2]%Z))))|].
  constructor; [exact (C55_parents R 0%R TOr [b0; b1] [b1; b0] b2 (perm_swap b1 b0 []))|constructor].
Qed.
Lemma ex5_fresh T : exists c', fresh_bp (ex5_graph IZR) T c' /\ exists a', bp_init c' None None (Some ex_updates) = Ok a'.
Proof.
  destruct (BP {| bs_log_potentials := {| c_state := (9, ex5_state IZR); c_value := st_log_potentials (ex5_state IZR) |};
       bs_ftov_msgs := {| c_state := (9, ex5_state IZR); c_value := repeat 0%R 22 |};
       bs_evidence := {| c_state := (9, ex5_state IZR); c_value := repeat 0%R 11 |} |} T) as [c'|e] eqn:E; [|discriminate].
  exists c'. split; [exists (fun _ => 0%Z), (ex5_state IZR), 9; eexists; split; [exact (ex5_compiles IZR)|]; split; [reflexivity|exact E]|].
  injection E as <-. eexists. reflexivity.
Qed.
Example C55_nonvacuous : forall T d n, (0 <= T)%R -> (0 <= d <= 1)%R ->
  exists c' a', fresh_bp (ex5_graph IZR) T c' /\ bp_init c' None None (Some ex_updates) = Ok a' /\
  get_beliefs c' (run_bp c' a' n d) = get_beliefs (ex_c T) (run_bp (ex_c T) (ex_arrays IZR (repeat 0%R 22) ex_evidence) n d).
Proof.
  intros T d n HT Hd. destruct (ex2_fresh T) as [F1 [_ [_ [I1 _]]]]. destruct (ex5_fresh T) as [c' [F2 [a' I2]]]. destruct ex2_built as [B1 _]. exists c', a'. split; [exact F2|]. split; [exact I2|].
  exact (C55_order (GsList ex_vgs) _ _ _ _ T (ex_c T) c' _ _ a' ex_vgs_ok ex5_valid B1 ex5_built (ex_intro _ _ (conj (Permutation_refl _) ex5_reordered)) F1 F2 I1 I2 10%R 10%R 10 3 d n ex2_moderate HT Hd ex_supported).
Qed.
(** Exchanging a parent and the child is not: the beliefs of [b0], [b1], [b2] in a graph with
    one OR factor, with rational numbers, after one iteration. *)
Definition ex6_beliefs (vs : list variable) : option (gdata (ext Q)) :=
  let fg := {| fg_id := 51; fg_kind := KLogical; fg_type := TOr; fg_vars := [vs]; fg_configs := mkArr [] []; fg_log_potentials := [] |} in
  match compile_fg_state (fun _ => 0%Z) (fst (add_factors (AGroup fg) (FactorGraph (GsList ex_vgs)))) with
  | Raise _ => None
  | Ok st =>
      match default_bp_state (10, st) with
      | Raise _ => None
      | Ok bs =>
          match BP bs 0%Q with
          | Raise _ => None
          | Ok c =>
              match bp_init c None None (Some [(EVar b0, DArr (vec [0%Q; 1%Q]))]) with
              | Raise _ => None
              | Ok a => match get_beliefs c (run_bp c a 1 0%Q) with Ok b => dget vg_eqb (VA ex_vg) b | Raise _ => None end
              end
          end
      end
  end.
Example C55_child_matters :
  match ex6_beliefs [b0; b1; b2], ex6_beliefs [b1; b0; b2], ex6_beliefs [b2; b1; b0] with
  | Some b, Some b', Some b'' => b = b' /\ row (VA ex_vg) b 2 <> row (VA ex_vg) b'' 2
  | _, _, _ => False
  end.
Proof. vm_compute. split; [reflexivity|discriminate]. Qed.
