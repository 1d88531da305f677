(** * Properties C01-C05: variable groups. *)
From Verif Require Import VGroup SpecVGroup LemVGroup.
From Coq Require Import Sorted Lia.
Local Open Scope nat_scope.

(** ** C01: variables have unique identities *)
Theorem C01_unique_identity :
  forall g, constructed g -> (Z.of_nat (length (vg_variables g)) <= 1000000000)%Z ->
  (forall x, In x (vg_variables g) -> 0 <= fst x < 2 ^ 63)%Z /\
  NoDup (map fst (vg_variables g)) /\
  (forall g', constructed g' -> (Z.of_nat (length (vg_variables g')) <= 1000000000)%Z ->
     (vg_id g mod 2 ^ 32 <> vg_id g' mod 2 ^ 32)%Z ->
     forall x y, In x (vg_variables g) -> In y (vg_variables g') -> fst x <> fst y).
Proof. exact C01_lemma'. Qed.
Print Assumptions C01_unique_identity.

(** NDVarArrays enforce the size hypothesis themselves. *)
Theorem C01_size_enforced :
  forall id ns shp v, wf_ns ns -> NDVarArray id ns shp = Ok v ->
  length (va_variables v) = cells shp /\ (Z.of_nat (length (va_variables v)) <= 1000000000)%Z.
Proof. exact C01_size_lemma. Qed.
Print Assumptions C01_size_enforced.

(** Groups whose ids agree modulo 2^32 do collide. *)
Theorem C01_distinct_ids_refuted :
  ~ (forall g g' x y, constructed g -> constructed g' -> vg_id g <> vg_id g' ->
       In x (vg_variables g) -> In y (vg_variables g') -> fst x <> fst y).
Proof.
  intros H.
  apply (H (VA {| va_id := 5; va_shape := [2]; va_num_states := [3; 3] |})
           (VA {| va_id := 5 + 2 ^ 32; va_shape := [2]; va_num_states := [3; 3] |})
           (5000000001%Z, 3) (5000000001%Z, 3)).
  - exists 5%Z, (NsScalar 3), [2]. now split.
  - exists (5 + 2 ^ 32)%Z, (NsScalar 3), [2]. now split.
  - discriminate.
  - right. now left.
  - right. now left.
  - reflexivity.
Qed.
Print Assumptions C01_distinct_ids_refuted.

Example C01_nonvacuous :
  exists g g', constructed g /\ constructed g' /\ (vg_id g mod 2 ^ 32 <> vg_id g' mod 2 ^ 32)%Z /\
    length (vg_variables g) = 6 /\ vg_variables g' = [(8000000000%Z, 2); (8000000001%Z, 5)].
Proof.
  exists (VA {| va_id := 7; va_shape := [2; 3]; va_num_states := [2; 2; 2; 2; 2; 2] |}),
         (VD {| vd_id := 8; vd_names := [10; 20]%Z; vd_num_states := [2; 5] |}).
  split; [exists 7%Z, (NsScalar 2), [2; 3]; now split|].
  split; [exists 8%Z, (NsIntArray (mkArr [2] [2; 5])), [10; 20]%Z;
          repeat split; repeat constructor; simpl; intuition lia|].
  split; [discriminate|]. now split.
Qed.

(** ** C02: integer indexing is row-major and bounds-checked *)
Theorem C02_int_indexing :
  forall id ns shp v ii,
  wf_ns ns -> NDVarArray id ns shp = Ok v -> ii <> [] -> length ii = length shp ->
  (forall idx, length idx = length ii ->
     Forall2 (fun ip d => denotes d (fst ip) (snd ip)) (combine ii idx) shp ->
     exists x, nth_error (va_variables v) (ravel shp idx) = Some x /\
               snd x = nth (ravel shp idx) (va_num_states v) 0 /\
               va_getitem v (map IInt ii) = Ok (GVar x)) /\
  ((forall idx, length idx = length ii ->
     ~ Forall2 (fun ip d => denotes d (fst ip) (snd ip)) (combine ii idx) shp) ->
   va_getitem v (map IInt ii) = Raise IndexError).
Proof. exact C02_lemma. Qed.
Print Assumptions C02_int_indexing.

(** Row-major rank is a bijection between legal multi-indices and positions. *)
Theorem C02_ravel_bijective :
  forall s,
  (forall idx, in_shape s idx -> ravel s idx < cells s) /\
  (forall idx idx', in_shape s idx -> in_shape s idx' -> ravel s idx = ravel s idx' -> idx = idx') /\
  (forall p, p < cells s -> exists idx, in_shape s idx /\ ravel s idx = p).
Proof. exact (fun s => conj (ravel_lt s) (conj (ravel_inj s) (ravel_surj s))). Qed.
Print Assumptions C02_ravel_bijective.

Example C02_nonvacuous :
  exists v, NDVarArray 1 (NsIntArray (mkArr [2; 3] [2; 3; 4; 5; 6; 7])) [2; 3] = Ok v /\
    va_getitem v (map IInt [1; -3]%Z) = Ok (GVar (1000000003%Z, 5)) /\
    va_getitem v (map IInt [1; 3]%Z) = Raise IndexError /\
    Forall2 (fun ip d => denotes d (fst ip) (snd ip)) (combine [1; -3]%Z [1; 0]) [2; 3].
Proof.
  eexists. split; [reflexivity|]. split; [reflexivity|]. split; [reflexivity|].
  repeat constructor; simpl; lia.
Qed.

(** ** C03: slicing *)
Theorem C03_slicing :
  forall id ns shp v s items vs,
  wf_ns ns -> NDVarArray id ns shp = Ok v ->
  va_getitem v (ISlice s :: items) = Ok (GList vs) ->
  exists ps,
    vs = map (fun p => nth p (va_variables v) (0%Z, 0)) ps /\
    (forall p, In p ps <-> exists idx, items_select shp (ISlice s :: items) idx /\ ravel shp idx = p) /\
    NoDup ps /\ (Forall item_step_pos (ISlice s :: items) -> StronglySorted lt ps) /\
    (forall idx, items_select shp (ISlice s :: items) idx ->
       va_getitem v (map (fun i => IInt (Z.of_nat i)) idx)
       = Ok (GVar (nth (ravel shp idx) (va_variables v) (0%Z, 0)))).
Proof. exact C03_lemma. Qed.
Print Assumptions C03_slicing.

(** Slicing succeeds exactly when there are not too many indices, integers are in range
    and steps are not zero. *)
Theorem C03_slicing_succeeds :
  forall id ns shp v s items,
  wf_ns ns -> NDVarArray id ns shp = Ok v ->
  ((exists vs, va_getitem v (ISlice s :: items) = Ok (GList vs)) <->
   length (ISlice s :: items) <= length shp /\
   forall k, k < length (ISlice s :: items) ->
     item_bad (nth k shp 0) (nth k (ISlice s :: items) (IInt 0)) = None).
Proof. exact C03_fail_lemma. Qed.
Print Assumptions C03_slicing_succeeds.

Example C03_nonvacuous :
  exists v, NDVarArray 0 (NsScalar 2) [3; 4] = Ok v /\
    va_getitem v [ISlice {| sl_start := Some (-2)%Z; sl_stop := Some 100%Z; sl_step := None |};
                  ISlice {| sl_start := Some 1%Z; sl_stop := None; sl_step := Some 2%Z |}]
    = Ok (GList [(5%Z, 2); (7%Z, 2); (9%Z, 2); (11%Z, 2)]).
Proof. eexists. split; reflexivity. Qed.

(** A tuple that starts with an integer and contains a slice does not give a list of
    variables but a pair of arrays. *)
Theorem C03_int_first_refuted :
  ~ (forall id ns shp v items, wf_ns ns -> NDVarArray id ns shp = Ok v ->
       (exists s, In (ISlice s) items) -> (exists ps, select shp items = Ok ps) ->
       exists vs, va_getitem v items = Ok (GList vs)).
Proof.
  intros H.
  destruct (H 0%Z (NsScalar 2) [2; 2] {| va_id := 0; va_shape := [2; 2]; va_num_states := [2; 2; 2; 2] |}
              [IInt 0; ISlice {| sl_start := None; sl_stop := None; sl_step := None |}] I eq_refl) as [vs Hvs].
  - eexists. right. left. reflexivity.
  - eexists. reflexivity.
  - discriminate.
Qed.
Print Assumptions C03_int_first_refuted.

(** ** C04: flatten/unflatten of an NDVarArray *)
Theorem C04_flatten_accepts :
  forall (A : Type) v (d : ndarray A), constructed (VA v) -> wf_arr d ->
  ((exists f, va_flatten v d = Ok f) <->
     shape d = va_shape v \/
     (va_num_states v <> [] /\ shape d = va_shape v ++ [nat_max (va_num_states v)])) /\
  (forall e, va_flatten v d = Raise e -> e = ValueError).
Proof. exact (fun A v d H => C04_accept v d (constructed_wf (VA v) H)). Qed.
Print Assumptions C04_flatten_accepts.

Theorem C04_roundtrip_per_variable :
  forall (A : Type) (ninf : A) v (d : ndarray A),
  constructed (VA v) -> wf_arr d -> shape d = va_shape v ->
  exists f, va_flatten v d = Ok f /\ f = data d /\ va_unflatten ninf v (mkArr [length f] f) = Ok d.
Proof. exact (fun A ninf v d H => C04_per_variable ninf v d (constructed_wf (VA v) H)). Qed.
Print Assumptions C04_roundtrip_per_variable.

Theorem C04_roundtrip_per_state :
  forall (A : Type) (ninf : A) v (d : ndarray A),
  constructed (VA v) -> wf_arr d -> va_num_states v <> [] ->
  shape d = va_shape v ++ [nat_max (va_num_states v)] ->
  list_sum (va_num_states v) <> prod (va_shape v) ->
  exists f d', va_flatten v d = Ok f /\ length f = list_sum (va_num_states v) /\
    va_unflatten ninf v (mkArr [length f] f) = Ok d' /\ shape d' = shape d /\
    length (data d') = length (data d) /\
    forall i j, i < prod (va_shape v) -> j < nat_max (va_num_states v) ->
      nth (i * nat_max (va_num_states v) + j) (data d') ninf
      = if j <? nth i (va_num_states v) 0
        then nth (i * nat_max (va_num_states v) + j) (data d) ninf else ninf.
Proof. exact (fun A ninf v d H => C04_per_state ninf v d (constructed_wf (VA v) H)). Qed.
Print Assumptions C04_roundtrip_per_state.

(** The flat vector of per-state data is the concatenation of the variables' rows. *)
Theorem C04_flatten_rows :
  forall (A : Type) v (d : ndarray A) f,
  constructed (VA v) -> wf_arr d -> shape d = va_shape v ++ [nat_max (va_num_states v)] ->
  va_flatten v d = Ok f ->
  f = concat (map (fun i => firstn (nth i (va_num_states v) 0)
                              (skipn (i * nat_max (va_num_states v)) (data d)))
                  (seq 0 (prod (va_shape v)))).
Proof. exact (fun A v d f H => C04_rows v d f (constructed_wf (VA v) H)). Qed.
Print Assumptions C04_flatten_rows.

Theorem C04_unflatten_flatten :
  forall (A : Type) (ninf : A) v (f : list A) d,
  constructed (VA v) -> va_unflatten ninf v (mkArr [length f] f) = Ok d -> va_flatten v d = Ok f.
Proof. exact (fun A ninf v f d H => C04_back ninf v f d (constructed_wf (VA v) H)). Qed.
Print Assumptions C04_unflatten_flatten.

(** The side condition of the per-state round trip fails only when every variable has
    exactly one state (variables having at least one). *)
Theorem C04_ambiguous_only_if_one_state :
  forall v, constructed (VA v) -> (forall n, In n (va_num_states v) -> 0 < n) ->
  list_sum (va_num_states v) = prod (va_shape v) -> forall n, In n (va_num_states v) -> n = 1.
Proof. exact C04_ambiguous. Qed.
Print Assumptions C04_ambiguous_only_if_one_state.

(** ... and there the round trip does fail. *)
Theorem C04_one_state_roundtrip_refuted :
  ~ (forall (A : Type) (ninf : A) v (d : ndarray A) f,
       constructed (VA v) -> wf_arr d -> shape d = va_shape v ++ [nat_max (va_num_states v)] ->
       va_flatten v d = Ok f -> exists d', va_unflatten ninf v (mkArr [length f] f) = Ok d' /\ shape d' = shape d).
Proof.
  intros H.
  destruct (H nat 0 {| va_id := 0; va_shape := [2]; va_num_states := [1; 1] |} (mkArr [2; 1] [4; 5]) [4; 5])
    as [d' [H1 H2]]; try reflexivity.
  - exists 0%Z, (NsScalar 1), [2]. now split.
  - injection H1 as <-. discriminate.
Qed.
Print Assumptions C04_one_state_roundtrip_refuted.

Example C04_nonvacuous :
  exists v, NDVarArray 3 (NsIntArray (mkArr [2] [1; 3])) [2] = Ok v /\
    va_flatten v (mkArr [2; 3] [10; 11; 12; 20; 21; 22]) = Ok [10; 20; 21; 22] /\
    va_unflatten 99 v (mkArr [4] [10; 20; 21; 22]) = Ok (mkArr [2; 3] [10; 99; 99; 20; 21; 22]).
Proof. eexists. repeat split. Qed.

(** ** C05: VarDict *)
Theorem C05_lookup :
  forall v, constructed (VD v) ->
  (forall i x, nth_error (vd_names v) i = Some x ->
     exists y, nth_error (vd_variables v) i = Some y /\
               nth_error (vd_num_states v) i = Some (snd y) /\ vd_getitem v x = Ok y) /\
  (forall x, ~ In x (vd_names v) -> vd_getitem v x = Raise ValueError).
Proof. exact C05_get_lemma. Qed.
Print Assumptions C05_lookup.

Theorem C05_flatten :
  forall (A : Type) v (d : list (name * ndarray A)), constructed (VD v) ->
  (forall f, vd_flatten v d = Ok f <->
     (vdict_data_ok v d /\ vd_names v <> [] /\
      exists parts, f = concat (map (@data A) parts) /\
        Forall2 (fun x a => dget Z.eqb x d = Some a) (vd_names v) parts)) /\
  (~ vdict_data_ok v d -> vd_flatten v d = Raise ValueError) /\
  (vdict_data_ok v d -> forall x, In x (vd_names v) -> dget Z.eqb x d = None ->
     vd_flatten v d = Raise KeyError).
Proof. exact (fun A => @C05_flatten_lemma A). Qed.
Print Assumptions C05_flatten.

Theorem C05_roundtrip :
  forall (A : Type) v (d : list (name * ndarray A)) f,
  constructed (VD v) -> (forall n, In n (vd_num_states v) -> 0 < n) ->
  (forall x a, In (x, a) d -> wf_arr a) ->
  vd_flatten v d = Ok f ->
  ((forall x a, In (x, a) d -> shape a = [1]) \/
   (forall x a i, In (x, a) d -> nth_error (vd_names v) i = Some x -> shape a = [nth i (vd_num_states v) 0])) ->
  exists d', vd_unflatten v (mkArr [length f] f) = Ok d' /\
    forall x, In x (vd_names v) -> dget Z.eqb x d' = dget Z.eqb x d.
Proof. exact (fun A => @C05_round_lemma A). Qed.
Print Assumptions C05_roundtrip.

(** Mixing single entries and per-state arrays is accepted by flatten but cannot be read
    back. *)
Theorem C05_mixed_roundtrip_refuted :
  ~ (forall (A : Type) v (d : list (name * ndarray A)) f,
       constructed (VD v) -> (forall n, In n (vd_num_states v) -> 0 < n) ->
       (forall x a, In (x, a) d -> wf_arr a) -> vd_flatten v d = Ok f ->
       exists d', vd_unflatten v (mkArr [length f] f) = Ok d').
Proof.
  intros H.
  destruct (H nat {| vd_id := 0; vd_names := [1; 2]%Z; vd_num_states := [3; 3] |}
              [(1%Z, mkArr [3] [7; 8; 9]); (2%Z, mkArr [1] [5])] [7; 8; 9; 5]) as [d' Hd'].
  - exists 0%Z, (NsScalar 3), [1; 2]%Z. repeat split. repeat constructor; simpl; intuition lia.
  - simpl. intuition lia.
  - intros x a [E|[E|[]]]; injection E as <- <-; reflexivity.
  - reflexivity.
  - discriminate.
Qed.
Print Assumptions C05_mixed_roundtrip_refuted.

Example C05_nonvacuous :
  exists v, VarDict 4 (NsIntArray (mkArr [2] [2; 3])) [30; 40]%Z = Ok v /\
    vd_getitem v 40%Z = Ok (4000000001%Z, 3) /\ vd_getitem v 50%Z = Raise ValueError /\
    vd_flatten v [(40%Z, mkArr [3] [3; 4; 5]); (30%Z, mkArr [2] [1; 2])] = Ok [1; 2; 3; 4; 5] /\
    vd_unflatten v (mkArr [5] [1; 2; 3; 4; 5]) = Ok [(30%Z, mkArr [2] [1; 2]); (40%Z, mkArr [3] [3; 4; 5])].
Proof. eexists. repeat split. Qed.
