(** * Property C03: all results of indexing an NDVarArray. *)
From Verif Require Import NumPy VGroup SpecVGroup LemVGroup LemGetitem.
From Coq Require Import Lia ZArith Sorting.Sorted.
Local Open Scope nat_scope.

(** Indexing fails with IndexError for the empty tuple and for too many indices, and otherwise
    with the exception of the first index that is bad: IndexError for an integer out of range,
    ValueError for a zero step. *)
Theorem C03_errors :
  forall id ns shp v items, wf_ns ns -> NDVarArray id ns shp = Ok v -> forall e,
  va_getitem v items = Raise e <->
  (e = IndexError /\ (items = [] \/ length shp < length items)) \/
  (length items <= length shp /\ exists k, k < length items /\ item_bad (nth k shp 0) (nth k items (IInt 0)) = Some e /\
     forall j, j < k -> item_bad (nth j shp 0) (nth j items (IInt 0)) = None).
Proof. exact C03_errors_lemma. Qed.
Print Assumptions C03_errors.

(** If the first index is an integer and they do not all choose one variable, the result is the
    pair of arrays of the hashes and numbers of states of the variables. *)
Theorem C03_int_first :
  forall id ns shp v i items, wf_ns ns -> NDVarArray id ns shp = Ok v ->
  (length (IInt i :: items) < length shp \/ exists s, In (ISlice s) items) ->
  forall r, va_getitem v (IInt i :: items) = Ok r -> exists ps,
    r = GArrays (map (fun p => fst (nth p (va_variables v) (0%Z, 0))) ps) (map (fun p => snd (nth p (va_variables v) (0%Z, 0))) ps) /\
    (forall p, In p ps <-> exists idx, items_select shp (IInt i :: items) idx /\ ravel shp idx = p) /\
    NoDup ps /\ (Forall item_step_pos items -> StronglySorted lt ps).
Proof. exact C03_arrays_lemma. Qed.
Print Assumptions C03_int_first.

Definition zero_step : pyslice := {| sl_start := None; sl_stop := None; sl_step := Some 0%Z |}.
Definition back : pyslice := {| sl_start := None; sl_stop := None; sl_step := Some (-2)%Z |}.
Example C03_errors_nonvacuous : exists v, NDVarArray 0 (NsScalar 2) [3; 4] = Ok v /\
  va_getitem v [ISlice back; ISlice zero_step] = Raise ValueError /\ va_getitem v [IInt 3; ISlice zero_step] = Raise IndexError /\
  va_getitem v [ISlice zero_step; IInt 4] = Raise ValueError /\ va_getitem v [ISlice zero_step; IInt 0; IInt 0] = Raise IndexError /\ va_getitem v [] = Raise IndexError.
Proof. eexists. split; [reflexivity|]. repeat split. Qed.
Example C03_int_first_nonvacuous : exists v, NDVarArray 0 (NsIntArray (mkArr [2; 3] [2; 3; 4; 5; 6; 7])) [2; 3] = Ok v /\
  va_getitem v [IInt (-1)] = Ok (GArrays [3; 4; 5]%Z [5; 6; 7]) /\ va_getitem v [IInt 0; ISlice back] = Ok (GArrays [2; 0]%Z [4; 2]).
Proof. eexists. split; [reflexivity|]. repeat split. Qed.
