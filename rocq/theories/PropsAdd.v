(** * Properties C16-C17: adding factors to a graph. *)
From Verif Require Import FGraph SpecVGroup SpecFactor SpecFGraph SpecAdd LemAdd.
From Coq Require Import Lia.
Local Open Scope nat_scope.

(** ** C16: no two factors of one type on the same variables *)
Theorem C16_no_duplicates :
  forall (A : Type) gs (g : fgraph A), reachable gs g ->
  forall t, distinct_sets (factor_sets t g) /\
    (forall fg, In fg (pt_get t (gr_groups g)) -> fg_type fg = t).
Proof. exact (fun A => @C16_lemma A). Qed.
Print Assumptions C16_no_duplicates.

(** When a group is rejected, and what an addition changes. *)
Theorem C16_addition :
  forall (A : Type) gs (g : fgraph A) (fg : fgroup A), reachable gs g ->
  let t := fg_type fg in
  let g' := fst (add_factors (AGroup fg) g) in
  let r := snd (add_factors (AGroup fg) g) in
  (r = Raise ValueError <->
     ~ (distinct_sets (fg_vars fg) /\ forall vs, In vs (fg_vars fg) -> ~ among vs (refused_sets t g))) /\
  (r = Ok tt \/ r = Raise ValueError) /\
  (r = Ok tt -> pt_get t (gr_groups g') = pt_get t (gr_groups g) ++ [fg] /\
                refused_sets t g' = refused_sets t g ++ fg_vars fg) /\
  (r = Raise ValueError -> gr_groups g' = gr_groups g) /\
  (forall u, u <> t -> pt_get u (gr_groups g') = pt_get u (gr_groups g) /\ refused_sets u g' = refused_sets u g).
Proof. exact (fun A => @C16_add_lemma A). Qed.
Print Assumptions C16_addition.

(** The sets of all factors in the graph are refused. *)
Theorem C16_factors_refused :
  forall (A : Type) gs (g : fgraph A) t, reachable gs g ->
  forall vs, In vs (factor_sets t g) -> In vs (refused_sets t g).
Proof. exact (fun A => @C16_refused_lemma A). Qed.
Print Assumptions C16_factors_refused.

(** Whatever the argument, no group is ever removed or reordered. *)
Theorem C16_groups_kept :
  forall (A : Type) (a : add_arg A) g t,
  exists more, pt_get t (gr_groups (fst (add_factors a g))) = pt_get t (gr_groups g) ++ more.
Proof. exact (fun A => @C16_keep_lemma A). Qed.
Print Assumptions C16_groups_kept.

Definition ex_a : variable := (10%Z, 2).
Definition ex_b : variable := (11%Z, 2).
Definition ex_c : variable := (12%Z, 2).
Definition ex_or (id : Z) (vars : list (list variable)) : fgroup nat :=
  {| fg_id := id; fg_kind := KLogical; fg_type := TOr; fg_vars := vars;
     fg_configs := mkArr [] []; fg_log_potentials := [] |}.

Example C16_nonvacuous :
  let g0 := @FactorGraph nat (GsList []) in
  let g1 := fst (add_factors (AGroup (ex_or 1 [[ex_a; ex_b]; [ex_b; ex_c]])) g0) in
  snd (add_factors (AGroup (ex_or 1 [[ex_a; ex_b]; [ex_b; ex_c]])) g0) = Ok tt /\
  factor_sets TOr g1 = [[ex_a; ex_b]; [ex_b; ex_c]] /\
  snd (add_factors (AGroup (ex_or 2 [[ex_c; ex_b]])) g1) = Raise ValueError /\
  snd (add_factors (AGroup (ex_or 2 [[ex_c; ex_a]])) g1) = Ok tt.
Proof. repeat split; reflexivity. Qed.

(** ** C17: a rejected addition is not atomic *)
Theorem C17_reserved_sets :
  forall (A : Type) gs (g : fgraph A) (fg : fgroup A),
  reachable gs g -> snd (add_factors (AGroup fg) g) = Raise ValueError ->
  let g' := fst (add_factors (AGroup fg) g) in
  gr_groups g' = gr_groups g /\
  exists i dup, nth_error (fg_vars fg) i = Some dup /\
    among dup (refused_sets (fg_type fg) g ++ firstn i (fg_vars fg)) /\
    refused_sets (fg_type fg) g' = refused_sets (fg_type fg) g ++ firstn i (fg_vars fg) /\
    forall vs, In vs (firstn i (fg_vars fg)) ->
    forall later fg2, fg_type fg2 = fg_type fg -> among vs (fg_vars fg2) ->
      let g2 := after_adds later g' in
      ~ among vs (factor_sets (fg_type fg) g2) /\
      snd (add_factors (AGroup fg2) g2) = Raise ValueError.
Proof. exact (fun A => @C17_lemma A). Qed.
Print Assumptions C17_reserved_sets.

(** In a list, the elements before the rejected one stay added. *)
Theorem C17_list :
  forall (A : Type) (l1 l2 : list (add_arg A)) a g g1 g2 e,
  add_factors (AList l1) g = (g1, Ok tt) -> add_factors a g1 = (g2, Raise e) ->
  add_factors (AList (l1 ++ a :: l2)) g = (g2, Raise e).
Proof. exact (fun A => @C17_list_lemma A). Qed.
Print Assumptions C17_list.

(** The set {a, b} stays refused although no factor uses it. *)
Example C17_nonvacuous :
  let g0 := @FactorGraph nat (GsList []) in
  let bad := ex_or 1 [[ex_a; ex_b]; [ex_b; ex_a]] in
  let g1 := fst (add_factors (AGroup bad) g0) in
  reachable [] g0 /\ snd (add_factors (AGroup bad) g0) = Raise ValueError /\
  factor_sets TOr g1 = [] /\
  snd (add_factors (AGroup (ex_or 2 [[ex_a; ex_b]])) g1) = Raise ValueError.
Proof. split; [now apply reach_new|]. repeat split; reflexivity. Qed.
