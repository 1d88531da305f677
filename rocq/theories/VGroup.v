(** * Model of pgmax/vgroup: variables and groups of variables. *)
From Verif Require Export NumPy.
Local Open Scope nat_scope.

(** A variable is a pair (hash, number of states).
    Models pgmax/vgroup/vgroup.py:17-19 (docstring of VarGroup).
    Numbers of states are [nat]: negative ones, which no check rejects, are not
    representable in the model. *)
Notation variable := (Z * nat)%type (only parsing).
Definition var_eqb (x y : variable) : bool := (fst x =? fst y)%Z && (snd x =? snd y).

(** pgmax/vgroup/vgroup.py:12 *)
Definition MAX_SIZE : Z := 1000000000.

(** pgmax/vgroup/vgroup.py:28-33 (VarGroup.__post_init__): [this_id = id(self) % 2**32;
    _hash = this_id * int(MAX_SIZE); assert _hash < 2**63]. The object id is a
    parameter. *)
Definition vg_hash (id : Z) : Z := (id mod 2 ^ 32 * MAX_SIZE)%Z.
Definition VarGroup_post_init (id : Z) : res Z :=
  _ <- guard (vg_hash id <? 2 ^ 63)%Z AssertionError ;; Ok (vg_hash id).

(** The [num_states] constructor argument: a scalar, a NumPy array of dtype int (with a
    shape), or anything else. *)
Inductive num_states_arg :=
| NsScalar (n : nat)
| NsIntArray (a : ndarray nat)
| NsOther.

(** ** NDVarArray *)
(** After construction [num_states] is always an array of shape [shape]. *)
Record varray := { va_id : Z; va_shape : list nat; va_num_states : list nat }.

(** pgmax/vgroup/varray.py:28-50 (NDVarArray.__post_init__).
    [np.prod] is taken without int64 wrap-around. *)
Definition NDVarArray (id : Z) (ns : num_states_arg) (shp : list nat) : res varray :=
  _ <- VarGroup_post_init id ;;
  if (MAX_SIZE <? Z.of_nat (prod shp))%Z then Raise ValueError
  else match ns with
  | NsScalar n => Ok {| va_id := id; va_shape := shp; va_num_states := repeat n (prod shp) |}
  | NsIntArray a =>
      if shape_eqb (shape a) shp
      then Ok {| va_id := id; va_shape := shp; va_num_states := data a |}
      else Raise ValueError
  | NsOther => Raise ValueError
  end.

(** pgmax/vgroup/varray.py:78-86: [self.__hash__() + np.arange(prod).reshape(shape)]
    (flattened). *)
Definition va_variable_hashes (v : varray) : list Z :=
  map (fun i => (vg_hash (va_id v) + Z.of_nat i)%Z) (seq 0 (prod (va_shape v))).

(** pgmax/vgroup/vgroup.py:69-81 (VarGroup.variables), for an NDVarArray. *)
Definition va_variables (v : varray) : list variable :=
  combine (va_variable_hashes v) (va_num_states v).

(** *** Indexing *)
(** A Python slice start:stop:step. *)
Record pyslice := { sl_start : option Z; sl_stop : option Z; sl_step : option Z }.
Inductive index_item := IInt (i : Z) | ISlice (s : pyslice).

(** CPython's [slice.indices(n)] followed by [range]: the positions selected along an
    axis of length [n]. A zero step raises ValueError. *)
Definition clip_start (n step i : Z) : Z :=
  if (i <? 0)%Z then
    if (i + n <? 0)%Z then (if (step <? 0)%Z then -1 else 0)%Z else (i + n)%Z
  else if (n <=? i)%Z then (if (step <? 0)%Z then n - 1 else n)%Z else i.
Definition slice_positions (n : nat) (s : pyslice) : res (list nat) :=
  let N := Z.of_nat n in
  let step := match sl_step s with None => 1%Z | Some k => k end in
  if (step =? 0)%Z then Raise ValueError
  else
    let lo := match sl_start s with
              | None => if (step <? 0)%Z then (N - 1)%Z else 0%Z
              | Some i => clip_start N step i end in
    let hi := match sl_stop s with
              | None => if (step <? 0)%Z then (-1)%Z else N
              | Some i => clip_start N step i end in
    let count := if (step <? 0)%Z
                 then (if (hi <? lo)%Z then (lo - hi - 1) / (- step) + 1 else 0)%Z
                 else (if (lo <? hi)%Z then (hi - lo - 1) / step + 1 else 0)%Z in
    Ok (map (fun k => Z.to_nat (lo + Z.of_nat k * step)) (seq 0 (Z.to_nat count))).

(** Positions selected along one axis by one index item. *)
Definition item_positions (n : nat) (it : index_item) : res (list nat) :=
  match it with
  | IInt i =>
      let j := norm_idx n i in
      if (j <? 0)%Z || (Z.of_nat n <=? j)%Z then Raise IndexError
      else Ok [Z.to_nat j]
  | ISlice s => slice_positions n s
  end.

(** Flat row-major positions selected by an index tuple (missing trailing items are
    full slices). NumPy basic indexing; [.flatten()] of the result. *)
Fixpoint select (shp : list nat) (items : list index_item) : res (list nat) :=
  match shp, items with
  | [], [] => Ok [0]
  | [], _ :: _ => Raise IndexError
  | d :: shp', [] =>
      inner <- select shp' [] ;;
      Ok (flat_map (fun p => map (fun q => p * prod shp' + q) inner) (seq 0 d))
  | d :: shp', it :: items' =>
      ps <- item_positions d it ;;
      inner <- select shp' items' ;;
      Ok (flat_map (fun p => map (fun q => p * prod shp' + q) inner) ps)
  end.

Definition is_slice (it : index_item) : bool :=
  match it with ISlice _ => true | IInt _ => false end.
Definition full_int_index (shp : list nat) (items : list index_item) : bool :=
  forallb (fun it => negb (is_slice it)) items && (length items =? length shp).

(** What [va[...]] returns: one variable, a list of variables, or a pair of arrays
    (when the index is not a full integer index and does not start with a slice). *)
Inductive getitem_result :=
| GVar (v : variable)
| GList (vs : list variable)
| GArrays (hashes : list Z) (num_states : list nat).

(** pgmax/vgroup/varray.py:52-76 (NDVarArray.__getitem__). [items] is the index tuple
    (an int or a slice alone is a one-element tuple). Ellipsis, newaxis and advanced
    indexing are not modelled; the pair of arrays is given flattened. *)
Definition va_getitem (v : varray) (items : list index_item) : res getitem_result :=
  if match items with [] => true | _ => false end then Raise IndexError (* val[0] of () *) else
  if length (va_shape v) <? length items then Raise IndexError (* too many indices *) else
  ps <- select (va_shape v) items ;;
  let hs := map (fun p => nth p (va_variable_hashes v) 0%Z) ps in
  let ns := map (fun p => nth p (va_num_states v) 0) ps in
  match items with
  | ISlice _ :: _ => Ok (GList (combine hs ns))
  | _ =>
      if full_int_index (va_shape v) items
      then Ok (GVar (nth 0 hs 0%Z, nth 0 ns 0))
      else Ok (GArrays hs ns)
  end.

(** *** Flattening *)
(** [np.arange(m) < num_states[..., None]], flattened. *)
Definition state_mask (m : nat) (ns : list nat) : list bool :=
  flat_map (fun n => map (fun j => j <? n) (seq 0 m)) ns.

(** pgmax/vgroup/varray.py:88-113 (NDVarArray.flatten). [num_states.max()] of an empty
    array raises ValueError, like the final branch. *)
Definition va_flatten {A} (v : varray) (d : ndarray A) : res (list A) :=
  if shape_eqb (shape d) (va_shape v) then Ok (data d)
  else match va_num_states v with
  | [] => Raise ValueError
  | _ =>
    let m := nat_max (va_num_states v) in
    if shape_eqb (shape d) (va_shape v ++ [m])
    then Ok (mask_get (state_mask m (va_num_states v)) (data d))
    else Raise ValueError
  end.

(** pgmax/vgroup/varray.py:115-152 (NDVarArray.unflatten). [ninf] is [-jnp.inf]. *)
Definition va_unflatten {A} (ninf : A) (v : varray) (f : ndarray A) : res (ndarray A) :=
  if negb (length (shape f) =? 1) then Raise ValueError
  else if length (data f) =? prod (va_shape v) then Ok (mkArr (va_shape v) (data f))
  else if length (data f) =? list_sum (va_num_states v) then
    match va_num_states v with
    | [] => Raise ValueError
    | _ =>
      let m := nat_max (va_num_states v) in
      Ok (mkArr (va_shape v ++ [m])
            (mask_set (state_mask m (va_num_states v))
                      (repeat ninf (prod (va_shape v) * m)) (data f)))
    end
  else Raise ValueError.

(** ** VarDict *)
(** Names are hashable objects only used through equality; here, integers. *)
Notation name := Z (only parsing).
Record vdict := { vd_id : Z; vd_names : list name; vd_num_states : list nat }.

(** pgmax/vgroup/vdict.py:25-43 (VarDict.__post_init__) *)
Definition VarDict (id : Z) (ns : num_states_arg) (names : list name) : res vdict :=
  _ <- VarGroup_post_init id ;;
  match ns with
  | NsScalar n => Ok {| vd_id := id; vd_names := names; vd_num_states := repeat n (length names) |}
  | NsIntArray a =>
      if shape_eqb (shape a) [length names]
      then Ok {| vd_id := id; vd_names := names; vd_num_states := data a |}
      else Raise ValueError
  | NsOther => Raise ValueError
  end.

(** pgmax/vgroup/vdict.py:45-53 *)
Definition vd_variable_hashes (v : vdict) : list Z :=
  map (fun i => (vg_hash (vd_id v) + Z.of_nat i)%Z) (seq 0 (length (vd_names v))).
(** pgmax/vgroup/vgroup.py:69-81, for a VarDict. *)
Definition vd_variables (v : vdict) : list variable :=
  combine (vd_variable_hashes v) (vd_num_states v).

(** [names.index(x)]: position of the first occurrence. *)
Fixpoint index_of (x : name) (l : list name) : option nat :=
  match l with
  | [] => None
  | y :: r => if (x =? y)%Z then Some 0
              else match index_of x r with Some i => Some (S i) | None => None end
  end.

(** pgmax/vgroup/vdict.py:55-70 (VarDict.__getitem__) *)
Definition vd_getitem (v : vdict) (x : name) : res variable :=
  match index_of x (vd_names v) with
  | None => Raise ValueError
  | Some i => Ok (nth i (vd_variable_hashes v) 0%Z, nth i (vd_num_states v) 0)
  end.

(** pgmax/vgroup/vdict.py:72-110 (VarDict.flatten). [jnp.concatenate] of no arrays
    raises ValueError; a missing name raises KeyError. *)
Definition vd_check {A} (v : vdict) (kd : name * ndarray A) : res unit :=
  match index_of (fst kd) (vd_names v) with
  | None => Raise ValueError
  | Some i =>
      if shape_eqb (shape (snd kd)) [nth i (vd_num_states v) 0]
         || shape_eqb (shape (snd kd)) [1]
      then Ok tt else Raise ValueError
  end.
Definition vd_flatten {A} (v : vdict) (d : list (name * ndarray A)) : res (list A) :=
  _ <- mapM (vd_check v) d ;;
  parts <- mapM (fun x => match dget Z.eqb x d with
                          | Some a => Ok (data a)
                          | None => Raise KeyError end) (vd_names v) ;;
  match parts with
  | [] => Raise ValueError
  | _ => Ok (concat parts)
  end.

(** pgmax/vgroup/vdict.py:112-162 (VarDict.unflatten); the loop carries [start] and the
    dictionary built so far. *)
Definition vd_unflatten_step {A} (v : vdict) (use_num_states : bool) (flat : list A)
    (st : nat * list (name * ndarray A)) (x : name) : nat * list (name * ndarray A) :=
  let start := fst st in
  if use_num_states then
    let n := match index_of x (vd_names v) with
             | Some i => nth i (vd_num_states v) 0 | None => 0 end in
    let part := slice flat start (start + n) in
    (start + n, dset Z.eqb x (mkArr [length part] part) (snd st))
  else
    let part := slice flat start (start + 1) in
    (start + 1, dset Z.eqb x (mkArr [1] part) (snd st)).
Definition vd_unflatten {A} (v : vdict) (f : ndarray A) : res (list (name * ndarray A)) :=
  if negb (length (shape f) =? 1) then Raise ValueError
  else
    let n := length (data f) in
    if n =? length (vd_names v) then
      Ok (snd (fold_left (vd_unflatten_step v false (data f)) (vd_names v) (0, [])))
    else if n =? list_sum (vd_num_states v) then
      Ok (snd (fold_left (vd_unflatten_step v true (data f)) (vd_names v) (0, [])))
    else Raise ValueError.

(** ** Variable groups *)
Inductive vgroup := VA (v : varray) | VD (v : vdict).

(** Structured data for a group: an array, or a mapping from names to arrays. *)
Inductive gdata (A : Type) := DArr (a : ndarray A) | DMap (d : list (name * ndarray A)).
Arguments DArr {A} a.
Arguments DMap {A} d.

Definition vg_id (g : vgroup) : Z := match g with VA v => va_id v | VD v => vd_id v end.
(** [group.num_states.flatten()] *)
Definition vg_num_states (g : vgroup) : list nat :=
  match g with VA v => va_num_states v | VD v => vd_num_states v end.
(** [group.variables] *)
Definition vg_variables (g : vgroup) : list variable :=
  match g with VA v => va_variables v | VD v => vd_variables v end.
(** pgmax/vgroup/vgroup.py:38-39 (VarGroup.__eq__): equality of hashes. *)
Definition vg_eqb (g h : vgroup) : bool := (vg_hash (vg_id g) =? vg_hash (vg_id h))%Z.

(** [group.flatten(data)]; data of the wrong kind fails (a dict has no [.shape];
    iterating an array as a mapping is simplified to TypeError). *)
Definition vg_flatten {A} (g : vgroup) (d : gdata A) : res (list A) :=
  match g, d with
  | VA v, DArr a => va_flatten v a
  | VD v, DMap m => vd_flatten v m
  | VA _, DMap _ => Raise AttributeError
  | VD _, DArr _ => Raise TypeError
  end.
(** [group.unflatten(flat)] *)
Definition vg_unflatten {A} (ninf : A) (g : vgroup) (f : ndarray A) : res (gdata A) :=
  match g with
  | VA v => a <- va_unflatten ninf v f ;; Ok (DArr a)
  | VD v => m <- vd_unflatten v f ;; Ok (DMap m)
  end.
