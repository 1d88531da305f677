(** * Python-level plumbing: exceptions as values, dictionaries, loops. *)
From Coq Require Export List ZArith Bool Arith.
Export ListNotations.

(** The exceptions raised by the modelled code. *)
Inductive exn :=
| ValueError | IndexError | KeyError | AssertionError | NotImplementedError
| AttributeError | TypeError | UnboundLocalError.

(** Result of a Python call: a value or an exception. *)
Inductive res (A : Type) := Ok (a : A) | Raise (e : exn).
Arguments Ok {A} a.
Arguments Raise {A} e.

Definition bind {A B} (x : res A) (f : A -> res B) : res B :=
  match x with Ok a => f a | Raise e => Raise e end.
Notation "x <- e ;; f" := (bind e (fun x => f))
  (at level 61, e at next level, right associativity).

(** [if cond: raise e]. *)
Definition guard (cond : bool) (e : exn) : res unit :=
  if cond then Ok tt else Raise e.

(** List comprehension whose element expression may raise (left to right). *)
Fixpoint mapM {A B} (f : A -> res B) (l : list A) : res (list B) :=
  match l with
  | [] => Ok []
  | x :: r => y <- f x ;; ys <- mapM f r ;; Ok (y :: ys)
  end.

(** [for x in l: s = f s x], where the body may raise. *)
Fixpoint foldM {S A} (f : S -> A -> res S) (l : list A) (s : S) : res S :=
  match l with
  | [] => Ok s
  | x :: r => s' <- f s x ;; foldM f r s'
  end.

(** [for i in range(n): s = body i s]. *)
Definition for_range {S} (n : nat) (body : nat -> S -> S) (s : S) : S :=
  fold_left (fun s i => body i s) (seq 0 n) s.

(** Python dictionaries: association lists in insertion order, keys compared by
    [eqb]; assigning an existing key keeps its position. *)
Section Dict.
  Context {K V : Type} (eqb : K -> K -> bool).
  Fixpoint dget (k : K) (d : list (K * V)) : option V :=
    match d with
    | [] => None
    | (k', v) :: r => if eqb k k' then Some v else dget k r
    end.
  Fixpoint dset (k : K) (v : V) (d : list (K * V)) : list (K * V) :=
    match d with
    | [] => [(k, v)]
    | (k', v') :: r => if eqb k k' then (k', v) :: r else (k', v') :: dset k v r
    end.
  (** [d.update(items)] *)
  Definition dupdate (d : list (K * V)) (items : list (K * V)) : list (K * V) :=
    fold_left (fun d kv => dset (fst kv) (snd kv) d) items d.
  (** [dict(items)] *)
  Definition dict_of (items : list (K * V)) : list (K * V) := dupdate [] items.
End Dict.
