(** * Properties C04 and C05: all results of unflatten. *)
From Verif Require Import NumPy Lists VGroup SpecVGroup LemVGroup LemUnflatten.
From Coq Require Import Lia.
Local Open Scope nat_scope.

(** ** C04 *)
(** A flat vector of an NDVarArray is read as one value per variable if it has that length, else
    as one value per state, and else refused. *)
Theorem C04_unflatten :
  forall A (ninf : A) v (f : ndarray A), constructed (VA v) -> wf_arr f ->
  let ns := va_num_states v in
  let m := nat_max ns in
  (length (shape f) = 1 -> length (data f) = prod (va_shape v) -> va_unflatten ninf v f = Ok (mkArr (va_shape v) (data f))) /\
  (length (shape f) = 1 -> length (data f) <> prod (va_shape v) -> length (data f) = list_sum ns ->
     exists d, va_unflatten ninf v f = Ok d /\ shape d = va_shape v ++ [m] /\ length (data d) = prod (va_shape v) * m /\
     forall i j, i < prod (va_shape v) -> j < m ->
       nth (i * m + j) (data d) ninf = if j <? nth i ns 0 then nth (list_sum (firstn i ns) + j) (data f) ninf else ninf) /\
  (length (shape f) <> 1 \/ length (data f) <> prod (va_shape v) /\ length (data f) <> list_sum ns -> va_unflatten ninf v f = Raise ValueError).
Proof. exact @C04_unflatten_lemma. Qed.
Print Assumptions C04_unflatten.

(** ** C05 *)
Theorem C05_unflatten :
  forall A v (f : ndarray A), constructed (VD v) -> wf_arr f ->
  let ns := vd_num_states v in
  (length (shape f) = 1 -> length (data f) = length (vd_names v) ->
     exists d, vd_unflatten v f = Ok d /\ map fst d = vd_names v /\
     forall i x y, nth_error (vd_names v) i = Some x -> nth_error (data f) i = Some y -> dget Z.eqb x d = Some (mkArr [1] [y])) /\
  (length (shape f) = 1 -> length (data f) <> length (vd_names v) -> length (data f) = list_sum ns ->
     exists d, vd_unflatten v f = Ok d /\ map fst d = vd_names v /\
     forall i x k, nth_error (vd_names v) i = Some x -> nth_error ns i = Some k ->
       dget Z.eqb x d = Some (mkArr [k] (firstn k (skipn (list_sum (firstn i ns)) (data f))))) /\
  (length (shape f) <> 1 \/ length (data f) <> length (vd_names v) /\ length (data f) <> list_sum ns -> vd_unflatten v f = Raise ValueError).
Proof. exact @C05_unflatten_lemma. Qed.
Print Assumptions C05_unflatten.

(** No data can be flattened for a group without variables. *)
Theorem C05_no_names :
  forall A v (d : list (name * ndarray A)), constructed (VD v) -> vd_names v = [] -> vd_flatten v d = Raise ValueError.
Proof. exact @C05_no_names_lemma. Qed.
Print Assumptions C05_no_names.

(** Data of the wrong kind is refused: a mapping for an array of variables has no shape, and an
    array for a VarDict is no mapping. *)
Theorem C05_wrong_kind :
  forall A v w (m : list (name * ndarray A)) (a : ndarray A),
  vg_flatten (VA v) (DMap m) = Raise AttributeError /\ vg_flatten (VD w) (DArr a) = Raise TypeError.
Proof. exact C05_wrong_kind_lemma. Qed.
Print Assumptions C05_wrong_kind.

(** ** Examples *)
(** Two by one variables of one and three states; names 7 and 8 for one and three states. *)
Definition ex15_va : varray := {| va_id := 0; va_shape := [2; 1]; va_num_states := [1; 3] |}.
Definition ex15_vd : vdict := {| vd_id := 0; vd_names := [7; 8]%Z; vd_num_states := [1; 3] |}.
Lemma ex15_va_ok : constructed (VA ex15_va).
Proof. exists 0%Z, (NsIntArray (mkArr [2; 1] [1; 3])), [2; 1]. split; [exact eq_refl|reflexivity]. Qed.
Lemma ex15_vd_ok : constructed (VD ex15_vd).
Proof. exists 0%Z, (NsIntArray (mkArr [2] [1; 3])), [7; 8]%Z. split; [exact eq_refl|]. split; [|reflexivity]. repeat constructor; cbn; intuition discriminate. Qed.
Example C04_unflatten_nonvacuous :
  va_unflatten 0 ex15_va (mkArr [2] [5; 6]) = Ok (mkArr [2; 1] [5; 6]) /\
  (exists d, va_unflatten 0 ex15_va (mkArr [4] [5; 6; 7; 8]) = Ok d /\ nth 0 (data d) 0 = 5 /\ nth 2 (data d) 0 = 0 /\ nth 5 (data d) 0 = 8) /\
  va_unflatten 0 ex15_va (mkArr [3] [5; 6; 7]) = Raise ValueError /\
  va_unflatten 0 ex15_va (mkArr [2; 1] [5; 6]) = Raise ValueError.
Proof.
  split; [apply (C04_unflatten nat 0 ex15_va (mkArr [2] [5; 6]) ex15_va_ok); reflexivity|]. split; [|split].
  - destruct (proj1 (proj2 (C04_unflatten nat 0 ex15_va (mkArr [4] [5; 6; 7; 8]) ex15_va_ok eq_refl)) eq_refl ltac:(discriminate) eq_refl) as [d [E [_ [_ H]]]].
    exists d. split; [exact E|]. split; [exact (H 0 0 ltac:(cbn; lia) ltac:(cbn; lia))|]. split; [exact (H 0 2 ltac:(cbn; lia) ltac:(cbn; lia))|exact (H 1 2 ltac:(cbn; lia) ltac:(cbn; lia))].
  - apply (C04_unflatten nat 0 ex15_va (mkArr [3] [5; 6; 7]) ex15_va_ok eq_refl). right. split; discriminate.
  - apply (C04_unflatten nat 0 ex15_va (mkArr [2; 1] [5; 6]) ex15_va_ok eq_refl). left. discriminate.
Qed.
Example C05_unflatten_nonvacuous :
  (exists d, vd_unflatten ex15_vd (mkArr [2] [5; 6]) = Ok d /\ dget Z.eqb 8%Z d = Some (mkArr [1] [6])) /\
  (exists d, vd_unflatten ex15_vd (mkArr [4] [5; 6; 7; 9]) = Ok d /\ dget Z.eqb 8%Z d = Some (mkArr [3] [6; 7; 9])) /\
  vd_unflatten ex15_vd (mkArr [3] [5; 6; 7]) = Raise ValueError /\
  vd_unflatten ex15_vd (mkArr [2; 1] [5; 6]) = Raise ValueError.
Proof.
  split; [|split; [|split]].
  - destruct (proj1 (C05_unflatten nat ex15_vd (mkArr [2] [5; 6]) ex15_vd_ok eq_refl) eq_refl eq_refl) as [d [E [_ H]]]. exists d. split; [exact E|]. exact (H 1 8%Z 6 eq_refl eq_refl).
  - destruct (proj1 (proj2 (C05_unflatten nat ex15_vd (mkArr [4] [5; 6; 7; 9]) ex15_vd_ok eq_refl)) eq_refl ltac:(discriminate) eq_refl) as [d [E [_ H]]]. exists d. split; [exact E|]. exact (H 1 8%Z 3 eq_refl eq_refl).
  - apply (C05_unflatten nat ex15_vd (mkArr [3] [5; 6; 7]) ex15_vd_ok eq_refl). right. split; discriminate.
  - apply (C05_unflatten nat ex15_vd (mkArr [2; 1] [5; 6]) ex15_vd_ok eq_refl). left. discriminate.
Qed.
Example C05_no_names_nonvacuous : exists v, constructed (VD v) /\ vd_names v = [] /\ vd_flatten v [(7%Z, mkArr [1] [5])] = Raise ValueError.
Proof.
  exists {| vd_id := 0; vd_names := []; vd_num_states := [] |}.
  assert (H : constructed (VD {| vd_id := 0; vd_names := []; vd_num_states := [] |})) by (exists 0%Z, (NsScalar 2), []; split; [exact I|split; [constructor|reflexivity]]).
  split; [exact H|]. split; [reflexivity|]. exact (C05_no_names nat _ _ H eq_refl).
Qed.
