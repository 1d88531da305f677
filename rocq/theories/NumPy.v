(** * The NumPy / JAX / numba array primitives used by PGMax, on lists.

    Sizes, lengths and numbers of states are [nat]; arrays of indices are [list Z]
    (NumPy int64, never near overflow, so unbounded); arrays of numbers are lists
    over any type with the operations of [Num]. *)
From Verif Require Export Py.
From Coq Require Import Reals QArith Qreduction.
Local Close Scope Q_scope.
Local Close Scope R_scope.
Local Open Scope nat_scope.

(** ** Arrays with a shape (row-major) *)
Record ndarray (A : Type) := mkArr { shape : list nat; data : list A }.
Arguments mkArr {A} shape data.
Arguments shape {A} n.
Arguments data {A} n.

(** [np.prod(shape)], [np.product(shape)] *)
Fixpoint prod (s : list nat) : nat :=
  match s with [] => 1 | d :: r => d * prod r end.

Definition wf_arr {A} (a : ndarray A) : Prop := length (data a) = prod (shape a).

Definition shape_eqb (s t : list nat) : bool :=
  if list_eq_dec Nat.eq_dec s t then true else false.

(** [a[i, j]] of a 2D array of [m] columns. *)
Definition get2 {A} (d : A) (m : nat) (xs : list A) (i j : nat) : A :=
  nth (i * m + j) xs d.

(** ** Cumulative sums *)
Fixpoint cumsum_from (a : nat) (l : list nat) : list nat :=
  match l with [] => [] | x :: r => (a + x) :: cumsum_from (a + x) r end.
(** [np.cumsum(l)] *)
Definition cumsum (l : list nat) : list nat := cumsum_from 0 l.
(** [np.insert(np.cumsum(l), 0, 0)] *)
Definition cumsum0 (l : list nat) : list nat := 0 :: cumsum l.
(** [np.insert(np.cumsum(l), 0, 0)[:-1]] *)
Definition starts (l : list nat) : list nat := removelast (cumsum0 l).

(** [l.max()] for a non-empty array of sizes (0 is neutral). *)
Definition nat_max (l : list nat) : nat := fold_right Nat.max 0 l.

(** ** Uninitialised arrays, slices, in-place updates *)
(** [np.empty((n,))]: arbitrary contents, given by [junk]. *)
Definition np_empty {A} (junk : nat -> A) (n : nat) : list A := map junk (seq 0 n).

(** [xs[i] = f(xs[i])] for an in-range [i]; out-of-range updates are dropped (as
    JAX scatters do; NumPy code here never goes out of range). *)
Fixpoint upd {A} (i : nat) (f : A -> A) (xs : list A) : list A :=
  match xs, i with
  | [], _ => []
  | x :: r, O => f x :: r
  | x :: r, S j => x :: upd j f r
  end.

(** [xs[a:b]] with [0 <= a], clipped at the end of the array. *)
Definition slice {A} (xs : list A) (a b : nat) : list A := firstn (b - a) (skipn a xs).

(** [xs[a:a+len(vs)] = vs] in place, for a slice inside the array. *)
Fixpoint blit {A} (a : nat) (vs : list A) (xs : list A) : list A :=
  match vs with
  | [] => xs
  | v :: r => blit (S a) r (upd a (fun _ => v) xs)
  end.

(** [np.arange(a, b, 2)] *)
Definition arange2 (a b : Z) : list Z :=
  map (fun k => (a + 2 * Z.of_nat k)%Z) (seq 0 (Z.to_nat ((b - a + 1) / 2)%Z)).

(** ** Indexing with index arrays *)
(** A negative index counts from the end. *)
Definition norm_idx (n : nat) (i : Z) : Z :=
  (if (i <? 0)%Z then i + Z.of_nat n else i)%Z.

(** [xs[i]] in JAX: negative indices wrap once, then indices are clamped into the
    array. [d] is only returned for an empty array. *)
Definition gather1 {A} (d : A) (xs : list A) (i : Z) : A :=
  let n := length xs in
  nth (Z.to_nat (Z.max 0 (Z.min (norm_idx n i) (Z.of_nat n - 1)))) xs d.
Definition gather {A} (d : A) (xs : list A) (idx : list Z) : list A :=
  map (gather1 d xs) idx.

(** One element of [xs.at[idx].op(vals)]: negative indices wrap once, out-of-range
    updates are dropped. *)
Definition scatter1 {A V} (f : A -> V -> A) (xs : list A) (iv : Z * V) : list A :=
  let j := norm_idx (length xs) (fst iv) in
  if (j <? 0)%Z then xs else upd (Z.to_nat j) (fun a => f a (snd iv)) xs.

(** [xs.at[idx].add/max/set(vals)]; [vals] has one entry per index. The updates are
    applied in order (JAX leaves the order of [set]s to equal indices unspecified). *)
Definition scatter {A V} (f : A -> V -> A) (xs : list A) (idx : list Z) (vals : list V)
  : list A := fold_left (scatter1 f) (combine idx vals) xs.

Definition scatter_set {A} (xs : list A) (idx : list Z) (vals : list A) : list A :=
  scatter (fun _ v => v) xs idx vals.

(** Elementwise binary operation of equally long vectors. *)
Fixpoint map2 {A B C} (f : A -> B -> C) (xs : list A) (ys : list B) : list C :=
  match xs, ys with
  | x :: xs', y :: ys' => f x y :: map2 f xs' ys'
  | _, _ => []
  end.

(** [jax.lax.dynamic_slice(xs, [start], [size])]: a negative start is first shifted by
    the length (jax 0.3.13, [_dynamic_slice_indices]), then XLA clamps it so that the
    window fits. *)
Definition dynamic_slice {A} (xs : list A) (start : Z) (size : nat) : list A :=
  let n := length xs in
  let s := Z.max 0 (Z.min (norm_idx n start) (Z.of_nat n - Z.of_nat size)) in
  slice xs (Z.to_nat s) (Z.to_nat s + size).

(** [jnp.repeat(xs, reps, total_repeat_length=n)]: truncated, or padded with the last
    value. *)
Definition jnp_repeat {A} (d : A) (xs : list A) (reps : list nat) (n : nat) : list A :=
  let l := concat (map2 (fun x r => repeat x r) xs reps) in
  firstn n (l ++ repeat (last l d) n).

(** [jnp.tile(xs, n)] *)
Definition tile {A} (xs : list A) (n : nat) : list A := concat (repeat xs n).

(** [jnp.bincount(labels, length=n)] for non-negative labels. *)
Definition bincount (labels : list Z) (n : nat) : list nat :=
  map (fun k => length (filter (fun l => (l =? Z.of_nat k)%Z) labels)) (seq 0 n).

(** [np.nonzero(xs == v)[0]] *)
Definition nonzero_eq (xs : list Z) (v : Z) : list nat :=
  filter (fun i => (nth i xs 0 =? v)%Z) (seq 0 (length xs)).

(** [np.unique(xs).shape[0]] *)
Definition num_unique (xs : list Z) : nat := length (nodup Z.eq_dec xs).

(** [data[mask]] for a boolean mask of the same (flattened) shape. *)
Fixpoint mask_get {A} (mask : list bool) (xs : list A) : list A :=
  match mask, xs with
  | b :: mask', x :: xs' => if b then x :: mask_get mask' xs' else mask_get mask' xs'
  | _, _ => []
  end.
(** [xs.at[mask].set(vals)]: the k-th true position receives the k-th value. *)
Fixpoint mask_set {A} (mask : list bool) (xs vals : list A) : list A :=
  match mask, xs with
  | b :: mask', x :: xs' =>
      if b then match vals with
                | v :: vals' => v :: mask_set mask' xs' vals'
                | [] => x :: mask_set mask' xs' []
                end
      else x :: mask_set mask' xs' vals
  | _, _ => xs
  end.

(** Split a list into consecutive rows of [m] entries, [n] rows. *)
Fixpoint rows {A} (n m : nat) (xs : list A) : list (list A) :=
  match n with
  | O => []
  | S k => firstn m xs :: rows k m (skipn m xs)
  end.

(** ** Numbers *)
(** The scalar operations used by the message-passing code. *)
Class Num (A : Type) := {
  nofZ : Z -> A;
  nadd : A -> A -> A;
  nsub : A -> A -> A;
  nmul : A -> A -> A;
  ndiv : A -> A -> A;
  nltb : A -> A -> bool;
  neqb : A -> A -> bool;
  nexp : A -> A;
  nln : A -> A
}.
Definition n0 {A} `{Num A} : A := nofZ 0.
Definition n1 {A} `{Num A} : A := nofZ 1.
Definition nopp {A} `{Num A} (x : A) : A := nsub n0 x.
Definition nmax {A} `{Num A} (x y : A) : A := if nltb x y then y else x.
Definition nmin {A} `{Num A} (x y : A) : A := if nltb y x then y else x.

(** Models pgmax/utils.py:6-8. *)
Definition NEG_INF {A} `{Num A} : A := nofZ (-100000).

(** [jnp.max(xs)] of a non-empty vector. *)
Definition jmax {A} `{Num A} (xs : list A) : A :=
  match xs with [] => n0 | x :: r => fold_left nmax r x end.

Definition nsum {A} `{Num A} (xs : list A) : A := fold_right nadd n0 xs.

(** Real numbers: the instance the theorems are about. *)
Global Instance RNum : Num R := {|
  nofZ := IZR;
  nadd := Rplus; nsub := Rminus; nmul := Rmult; ndiv := Rdiv;
  nltb := fun x y => if Rlt_dec x y then true else false;
  neqb := fun x y => if Req_EM_T x y then true else false;
  nexp := exp; nln := ln
|}.

(** Rationals: executable instance, used to run the model on examples at temperature
    0. There is no exponential or logarithm here. *)
Global Instance QNum : Num Q := {|
  nofZ := inject_Z;
  nadd := fun x y => Qred (Qplus x y); nsub := fun x y => Qred (Qminus x y);
  nmul := fun x y => Qred (Qmult x y); ndiv := fun x y => Qred (Qdiv x y);
  nltb := fun x y => negb (Qle_bool y x);
  neqb := Qeq_bool;
  nexp := fun x => x; nln := fun x => x
|}.
