(** * Specifications for factors and factor groups. *)
From Verif Require Import FGroup.
Local Open Scope nat_scope.

(** Entry [r, u] of a 2D array of configurations with [k] columns. *)
Definition config_at (configs : ndarray Z) (k r u : nat) : Z := nth (r * k + u) (data configs) 0%Z.

(** The configurations are a 2D array with one column per variable, and every entry is a
    legal state of its column's variable. *)
Definition legal_configs (vs : list variable) (configs : ndarray Z) (n : nat) : Prop :=
  shape configs = [n; length vs] /\
  forall r u x, r < n -> nth_error vs u = Some x ->
    (0 <= config_at configs (length vs) r u < Z.of_nat (snd x))%Z.

Definition binary_vars (vs : list variable) : Prop := forall x, In x vs -> snd x = 2.

(** Two lists of variables denote the same set. *)
Definition same_set (xs ys : list variable) : Prop := forall x, In x xs <-> In x ys.

(** All factors of the group are well formed. *)
Definition valid_group {A} (g : fgroup A) : Prop :=
  match fg_type g with
  | TEnum => exists nc, length (fg_log_potentials g) = length (fg_vars g) * nc /\
               forall vs, In vs (fg_vars g) -> legal_configs vs (fg_configs g) nc
  | _ => forall vs, In vs (fg_vars g) -> 2 <= length vs /\ binary_vars vs
  end.
(** No two factors of the group are connected to the same set of variables. *)
Definition distinct_sets (vss : list (list variable)) : Prop :=
  ForallOrdPairs (fun xs ys => ~ same_set xs ys) vss.

(** The [i]-th factor of the group: its variables and, for enumeration factors, the
    shared configurations and the [i]-th row of the log potentials. *)
Definition is_factor {A} (g : fgroup A) (i : nat) (f : factor A) : Prop :=
  match fg_type g, f with
  | TEnum, FEnum e =>
      let nc := nth 0 (shape (fg_configs g)) 0 in
      nth_error (fg_vars g) i = Some (ef_variables e) /\ ef_configs e = fg_configs g /\
      length (ef_log_potentials e) = nc /\
      forall c d, c < nc -> nth c (ef_log_potentials e) d = nth (i * nc + c) (fg_log_potentials g) d
  | TOr, FLogical l => nth_error (fg_vars g) i = Some (lf_variables l) /\ lf_type l = TOr
  | TAnd, FLogical l => nth_error (fg_vars g) i = Some (lf_variables l) /\ lf_type l = TAnd
  | _, _ => False
  end.

(** Number of distinct values of a list. *)
Definition has_distinct {X} (l : list X) (n : nat) : Prop :=
  exists l', NoDup l' /\ length l' = n /\ forall x, In x l <-> In x l'.

(** Every factor connects two variables with [n] and [m] states. *)
Definition pair_vars (vars : list (list variable)) (n m : nat) : Prop :=
  forall vs, In vs vars -> exists a b, vs = [a; b] /\ snd a = n /\ snd b = m.
(** Which matrix arguments fit. *)
Definition matrix_fits {A} (vars : list (list variable)) (mat : option (bool * ndarray A)) (n m : nat) : Prop :=
  match mat with
  | None => True
  | Some (fl, p) => fl = true /\ (shape p = [n; m] \/ shape p = [length vars; n; m])
  end.
(** Entry for factor [f] and states [(i, j)]; a 2D matrix is shared by all factors. *)
Definition matrix_entry {A} `{Num A} (mat : option (bool * ndarray A)) (n m f i j : nat) (d : A) : A :=
  match mat with
  | None => nofZ 0
  | Some (_, p) => if length (shape p) =? 2 then nth (i * m + j) (data p) d
                   else nth (f * (n * m) + (i * m + j)) (data p) d
  end.

(** A flat vector as an array. *)
Definition vec' {A} (xs : list A) : ndarray A := mkArr [length xs] xs.
