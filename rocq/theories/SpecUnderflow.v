(** * Specifications for OR and AND factors when exponentials underflow. *)
From Verif Require Import FGraph Lists SpecWiring SpecState SpecBP SpecText SpecRounded.
From Coq Require Import Reals.
Local Open Scope nat_scope.

(** A rounded arithmetic in which the exponential of every number up to [-U] is 0, as in
    floating point. [U], [U] times the
    temperature and their opposites are numbers of the format. *)
Definition underflowing (rnd ex lg : R -> R) (U T : R) : Prop :=
  is_rounding rnd /\ (0 < T)%R /\ representable rnd U /\ representable rnd (- U)%R /\
  representable rnd (U * T)%R /\ representable rnd (- (U * T))%R /\
  (forall x, (x <= - U)%R -> ex x = 0%R) /\ ex 0%R = 1%R /\ lg 1%R = 0%R.

(** The state of one parent that decides the result: on for OR, off for AND. *)
Definition deciding (t : ftype) : nat := match t with TAnd => 0 | _ => 1 end.

(** How much a message prefers the deciding state. *)
Definition lean (t : ftype) (m : msg) (f u : nat) : R := (m f u (deciding t) - m f u (1 - deciding t)%nat)%R.

(** The parents of a factor come first, its child is the last variable. *)
Definition parents {A} (fs : list (sfactor A)) (f : nat) : nat := arity fs f - 1.

(** In the order of the compiled graph: enumeration, OR and AND factors. *)
Definition logical_kind {A} (groups : per_type (list (fgroup A))) (f : nat) : ftype :=
  if f <? length (enum_factors groups) + length (logical_factors TOr groups) then TOr else TAnd.
