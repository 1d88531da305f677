(** * Exact marginals: sums over all assignments. *)
From Verif Require Import FGraph BPState BP Lists SpecFactor SpecWiring SpecState SpecBP SpecText SpecTree.
From Coq Require Import Reals.
Local Open Scope nat_scope.

Definition rprod (l : list R) : R := fold_right Rmult 1%R l.
(** Assign state [s] to variable [y]. *)
Definition assign (st : variable -> nat) (y : variable) (s : nat) : variable -> nat :=
  fun x => if var_eqb x y then s else st x.
(** Sum of [F] over all states of the variables [ys]; the others keep their states in [st]. *)
Fixpoint sum_states (ys : list variable) (st : variable -> nat) (F : (variable -> nat) -> R) : R :=
  match ys with
  | [] => F st
  | y :: r => rsum (map (fun s => sum_states r (assign st y s) F) (seq 0 (snd y)))
  end.

Section Sums.
  Context {A : Type} (fs : list (sfactor A)) (pots : nat -> nat -> R) (T : R) (ev : variable -> nat -> R).
  (** The configurations of factor [f] that agree with the states [st]. *)
  Definition agree (f : nat) (st : variable -> nat) : list nat :=
    filter (fun c => forallb (fun u => config_at_slot fs f c u =? st (var_at fs f u)) (seq 0 (arity fs f)))
           (seq 0 (length (sf_configs (factor_at fs f)))).
  (** The unnormalised probability of the states: evidence times factors, as exponentials at
      temperature [T]. *)
  Definition state_weight (xs : list variable) (st : variable -> nat) : R :=
    (exp (rsum (map (fun x => ev x (st x)) xs) / T)
     * rprod (map (fun f => rsum (map (fun c => exp (pots f c / T)) (agree f st))) (seq 0 (length fs))))%R.
  (** Total weight of the assignments to [xs] with [x] in state [s], and the marginal
      probability of [s]. *)
  Definition mass (xs : list variable) (x : variable) (s : nat) : R :=
    sum_states xs (fun _ => 0) (fun st => if st x =? s then state_weight xs st else 0%R).
  Definition marginal (xs : list variable) (x : variable) (s : nat) : R :=
    (mass xs x s / sum_states xs (fun _ => 0%nat) (state_weight xs))%R.
End Sums.
