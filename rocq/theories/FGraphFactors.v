(** * The factors and factor_groups properties of FactorGraph. *)
From Verif Require Export FGraph.
Local Open Scope nat_scope.

(** The tuple built for one factor type at pgmax/fgraph/fgraph.py:273-282: all factors of
    all groups of the type; [factor_group.factors] may raise. *)
Definition gr_factors_of {A} (gs : list (fgroup A)) : res (list (factor A)) :=
  fs <- mapM fg_factors gs ;; Ok (concat fs).

(** pgmax/fgraph/fgraph.py:261-286 (factors), without its cache. *)
Definition gr_factors {A} (g : fgraph A) : res (per_type (list (factor A))) :=
  e <- gr_factors_of (pt_enum (gr_groups g)) ;;
  o <- gr_factors_of (pt_or (gr_groups g)) ;;
  d <- gr_factors_of (pt_and (gr_groups g)) ;;
  Ok (PT e o d).

(** pgmax/fgraph/fgraph.py:288-291 (factor_groups): the dictionary itself. *)
Definition gr_factor_groups {A} (g : fgraph A) : per_type (list (fgroup A)) := gr_groups g.

(** ** The cache of [factors] *)
(** [factors] is a cached property like [wiring] (pgmax/utils.py:11-20); its cache is kept
    beside the caches of [world], which no other operation shares with it. *)
Record fworld (A : Type) := {
  fw_world : world A;
  fw_factors_cache : list (cache_key * per_type (list (factor A)))
}.
Arguments fw_world {A} f.
Arguments fw_factors_cache {A} f.
Definition fworld0 {A} : fworld A := {| fw_world := world0; fw_factors_cache := [] |}.

(** Operations: those of FGraph.v, reading [factors] and reading [factor_groups]. *)
Inductive fop (A : Type) := FBase (o : op A) | FFactors (i : nat) | FGroups (i : nat).
Arguments FBase {A} o.
Arguments FFactors {A} i.
Arguments FGroups {A} i.
Inductive fout (A : Type) :=
| ROut (o : out A)
| RFactors (p : per_type (list (factor A)))
| RGroups (p : per_type (list (fgroup A))).
Arguments ROut {A} o.
Arguments RFactors {A} p.
Arguments RGroups {A} p.

(** [g.factors] through its cache; exceptions are not cached. *)
Definition call_factors {A} (o : gobj A) (w : fworld A)
    : fworld A * res (per_type (list (factor A))) :=
  let k := graph_key (go_graph o) in
  match dget key_eqb k (fw_factors_cache w) with
  | Some v => (w, Ok v)
  | None =>
      match gr_factors (go_graph o) with
      | Ok v => ({| fw_world := fw_world w; fw_factors_cache := (k, v) :: fw_factors_cache w |}, Ok v)
      | Raise e => (w, Raise e)
      end
  end.

Definition fstep {A} (w : fworld A) (o : fop A) : fworld A * res (fout A) :=
  match o with
  | FBase o =>
      let '(w', r) := step (fw_world w) o in
      ({| fw_world := w'; fw_factors_cache := fw_factors_cache w |}, x <- r ;; Ok (ROut x))
  | FFactors i =>
      match nth_error (wo_graphs (fw_world w)) i with
      | None => (w, Raise AttributeError)
      | Some g => let '(w', r) := call_factors g w in (w', p <- r ;; Ok (RFactors p))
      end
  | FGroups i =>
      match nth_error (wo_graphs (fw_world w)) i with
      | None => (w, Raise AttributeError)
      | Some g => (w, Ok (RGroups (gr_factor_groups (go_graph g))))
      end
  end.
Definition fworld_run {A} (w : fworld A) (ops : list (fop A)) : fworld A :=
  fold_left (fun w o => fst (fstep w o)) ops w.
