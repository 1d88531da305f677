(** * Specifications for variable groups.

    Only the data types of the model (index tuples, constructor arguments, groups) are
    used here, none of its functions. *)
From Verif Require Import VGroup.
Local Open Scope nat_scope.

(** Number of cells of a shape and row-major rank of a multi-index. *)
Fixpoint cells (s : list nat) : nat := match s with [] => 1 | d :: r => d * cells r end.
Fixpoint ravel (s : list nat) (idx : list nat) : nat :=
  match s, idx with
  | _ :: s', i :: idx' => i * cells s' + ravel s' idx'
  | _, _ => 0
  end.
(** [idx] is a legal (non-negative) multi-index of shape [s]. *)
Definition in_shape (s idx : list nat) : Prop := Forall2 (fun i d => i < d) idx s.

(** A Python integer [i] denotes position [p] on an axis of length [d]. *)
Definition denotes (d : nat) (i : Z) (p : nat) : Prop :=
  (p < d) /\ (i = Z.of_nat p \/ i = Z.of_nat p - Z.of_nat d)%Z.

(** Python slices on an axis of length [n] (https://docs.python.org/3/library/stdtypes.html,
    "s[i:j:k]"): a bound counts from the end when negative and is then clamped; the
    selected positions are [lo, lo+k, ...] strictly before [hi]. *)
Definition slice_bound (n k i : Z) : Z :=
  let j := (if i <? 0 then i + n else i)%Z in
  if (0 <? k)%Z then Z.max 0 (Z.min n j) else Z.max (-1) (Z.min (n - 1) j).
Definition slice_selects (n : nat) (start stop step : option Z) (p : nat) : Prop :=
  let N := Z.of_nat n in
  let k := match step with Some k => k | None => 1%Z end in
  let lo := match start with Some i => slice_bound N k i
            | None => if (0 <? k)%Z then 0%Z else (N - 1)%Z end in
  let hi := match stop with Some i => slice_bound N k i
            | None => if (0 <? k)%Z then N else (-1)%Z end in
  exists j : nat, Z.of_nat p = (lo + Z.of_nat j * k)%Z /\
    (if (0 <? k)%Z then Z.of_nat p < hi else hi < Z.of_nat p)%Z.

(** An array argument has as many entries as its shape says. *)
Definition wf_ns (ns : num_states_arg) : Prop :=
  match ns with NsIntArray a => wf_arr a | _ => True end.

(** One index item selects position [p] of an axis of length [d]. *)
Definition item_selects (d : nat) (it : index_item) (p : nat) : Prop :=
  match it with
  | IInt i => denotes d i p
  | ISlice s => p < d /\ slice_selects d (sl_start s) (sl_stop s) (sl_step s) p
  end.
(** The index tuple selects the multi-index: item by item, missing items select all. *)
Fixpoint items_select (shp : list nat) (items : list index_item) (idx : list nat) : Prop :=
  match shp, items, idx with
  | [], [], [] => True
  | d :: shp', [], p :: idx' => p < d /\ items_select shp' [] idx'
  | d :: shp', it :: items', p :: idx' => item_selects d it p /\ items_select shp' items' idx'
  | _, _, _ => False
  end.
Definition item_step_pos (it : index_item) : Prop :=
  match it with
  | IInt _ => True
  | ISlice s => match sl_step s with Some k => (0 < k)%Z | None => True end
  end.

(** The exception an index item raises, if any: integers out of range, zero steps. *)
Definition item_bad (d : nat) (it : index_item) : option exn :=
  match it with
  | IInt i => if ((- Z.of_nat d <=? i) && (i <? Z.of_nat d))%Z then None else Some IndexError
  | ISlice s => match sl_step s with Some 0%Z => Some ValueError | _ => None end
  end.

(** The data supplied for a name has the allowed shape. *)
Definition vd_data_ok {A} (v : vdict) (d : list (name * ndarray A)) : Prop :=
  forall x a, In (x, a) d -> In x (vd_names v) /\
    (shape a = [nth (match index_of x (vd_names v) with Some i => i | None => 0 end) (vd_num_states v) 0]
     \/ shape a = [1]).


(** A group stores one number of states per variable (every constructed group does). *)
Definition wf_group (g : vgroup) : Prop :=
  match g with
  | VA v => length (va_num_states v) = prod (va_shape v)
  | VD v => length (vd_num_states v) = length (vd_names v)
  end.


(** The groups a program can hold: results of the two constructors. *)
Definition constructed (g : vgroup) : Prop :=
  match g with
  | VA v => exists id ns shp, wf_ns ns /\ NDVarArray id ns shp = Ok v
  | VD v => exists id ns names, wf_ns ns /\ NoDup names /\ VarDict id ns names = Ok v
  end.

(** Data given for a VarDict: every key is a declared name, and its array has one entry
    per state of that variable, or a single entry. *)
Definition vdict_data_ok {A} (v : vdict) (d : list (name * ndarray A)) : Prop :=
  forall x a, In (x, a) d -> exists i,
    nth_error (vd_names v) i = Some x /\ (shape a = [nth i (vd_num_states v) 0] \/ shape a = [1]).
