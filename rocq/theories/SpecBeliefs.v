(** * Specification of beliefs, MAP states and marginals. *)
From Verif Require Import FGraph BPState BP Lists SpecFGraph SpecFactor SpecWiring SpecState SpecBP SpecText.
From Coq Require Import Reals.
Local Open Scope nat_scope.

(** ** Structured data with a state axis *)
(** Length of the state axis at the [i]-th variable of a group. Arrays are padded to the
    largest number of states. *)
Definition state_axis (g : vgroup) (i : nat) : nat :=
  match g with VA v => nat_max (va_num_states v) | VD v => nth i (vd_num_states v) 0 end.
(** The entries of the [i]-th variable along the state axis, in the row-major order of
    the group's variables. *)
Definition row {B} (g : vgroup) (d : gdata B) (i : nat) : list B :=
  match g, d with
  | VA v, DArr a => let m := nat_max (va_num_states v) in firstn m (skipn (i * m) (data a))
  | VD v, DMap m => match dget Z.eqb (nth i (vd_names v) 0%Z) m with Some a => data a | None => [] end
  | _, _ => []
  end.
(** The same for data with one entry per variable. *)
Definition cell {B} (g : vgroup) (d : gdata B) (i : nat) : list B :=
  match g, d with
  | VA v, DArr a => firstn 1 (skipn i (data a))
  | VD v, DMap m => match dget Z.eqb (nth i (vd_names v) 0%Z) m with Some a => data a | None => [] end
  | _, _ => []
  end.
(** All variables of an array have one state. *)
Definition one_state (g : vgroup) : bool :=
  match g with VA v => forallb (Nat.eqb 1) (va_num_states v) | VD _ => false end.
(** Shape of per-state data: an array of one-state variables has no state axis. *)
Definition per_state_shape {B} (g : vgroup) (d : gdata B) : Prop :=
  match g, d with
  | VA v, DArr a => wf_arr a /\
      shape a = if one_state g then va_shape v else va_shape v ++ [nat_max (va_num_states v)]
  | VD v, DMap m => map fst m = vd_names v /\
      forall i x, nth_error (vd_names v) i = Some x ->
        exists a, dget Z.eqb x m = Some a /\ wf_arr a /\ shape a = [nth i (vd_num_states v) 0]
  | _, _ => False
  end.
(** Shape of data with one value per variable. *)
Definition per_var_shape {B} (g : vgroup) (d : gdata B) : Prop :=
  match g, d with
  | VA v, DArr a => wf_arr a /\ shape a = va_shape v
  | VD v, DMap m => map fst m = vd_names v /\
      forall x, In x (vd_names v) -> exists a, dget Z.eqb x m = Some a /\ wf_arr a /\ shape a = []
  | _, _ => False
  end.

(** ** Choices and probabilities *)
(** [s] is the first state among [n] with the largest value. *)
Definition first_best (b : nat -> R) (n s : nat) : Prop :=
  s < n /\ (forall t, t < n -> (b t <= b s)%R) /\ (forall t, t < s -> (b t < b s)%R).
(** Probabilities proportional to [exp b]. *)
Definition gibbs (b : nat -> R) (n s : nat) : R :=
  (exp (b s) / rsum (map (fun t => exp (b t)) (seq 0 n)))%R.
