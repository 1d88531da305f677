(** * Specification for C49: which arguments the constructors of variable groups accept. *)
From Verif Require Import VGroup.
Local Open Scope nat_scope.

(** The argument [num_states] fits a group of shape [shp]: an integer, or an integer
    array of that shape. *)
Definition states_fit (ns : num_states_arg) (shp : list nat) : Prop :=
  match ns with
  | NsScalar _ => True
  | NsIntArray a => shape a = shp
  | NsOther => False
  end.
(** The number of states asked for at flat position [i]. *)
Definition requested (ns : num_states_arg) (i : nat) : nat :=
  match ns with
  | NsScalar n => n
  | NsIntArray a => nth i (data a) 0
  | NsOther => 0
  end.
