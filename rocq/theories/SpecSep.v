(** * Factors that treat their variables separately. *)
From Verif Require Import FGraph BPState BP Lists SpecWiring SpecState SpecBP SpecText.
From Coq Require Import Reals.
Local Open Scope nat_scope.

(** Every combination of states of the variables of the factor is listed, once. *)
Definition complete {A} (F : sfactor A) : Prop :=
  NoDup (sf_configs F) /\
  forall cfg, length cfg = length (sf_vars F) ->
    (forall u, u < length (sf_vars F) -> (0 <= nth u cfg 0 < Z.of_nat (snd (nth u (sf_vars F) (0%Z, 0%nat))))%Z) ->
    In cfg (sf_configs F).
(** Its potentials [pot] are sums of one term per variable, [th u s] for the [u]-th variable in
    state [s], up to a constant. *)
Definition separable {A} (F : sfactor A) (pot : nat -> R) (th : nat -> nat -> R) : Prop :=
  complete F /\ exists k : R, forall c, c < length (sf_configs F) ->
    pot c = (k + rsum (map (fun u => th u (Z.to_nat (nth u (nth c (sf_configs F) []) 0%Z))) (seq 0 (length (sf_vars F)))))%R.
(** A function of [n] states with its maximum subtracted. *)
Definition centred (n : nat) (h : nat -> R) (s : nat) : R := (h s - rmaxs (map h (seq 0 n)))%R.
(** No term is more than 1000 below the largest one of its variable. *)
Definition narrow {A} (F : sfactor A) (th : nat -> nat -> R) : Prop :=
  forall u s, u < length (sf_vars F) -> s < snd (nth u (sf_vars F) (0%Z, 0%nat)) ->
    (-1000 <= centred (snd (nth u (sf_vars F) (0%Z, 0%nat))) (th u) s)%R.

(** ** More factors *)
Section Extends.
  Context {A : Type} (fs fs' : list (sfactor A)) (p : nat -> nat).
  (** The factors [fs] are among the factors [fs']: the [f]-th is the [p f]-th. *)
  Definition extends : Prop :=
    (forall f, f < length fs -> p f < length fs' /\ factor_at fs' (p f) = factor_at fs f) /\
    (forall f h, f < length fs -> h < length fs -> p f = p h -> f = h).
  Definition is_extra (f' : nat) : bool := negb (existsb (fun f => p f =? f') (seq 0 (length fs))).
  (** The terms of the extra factors for variable [x] in state [s], added up. *)
  Definition extra_terms (th : nat -> nat -> nat -> R) (x : variable) (s : nat) : R :=
    rsum (map (fun fu => centred (snd x) (th (fst fu) (snd fu)) s) (filter (fun fu => is_extra (fst fu)) (slots_of fs' x))).
End Extends.
(** The factor lists every combination, all with the same potential. *)
Definition uninformative (F : sfactor R) : Prop :=
  complete F /\ exists k : R, forall c, c < length (sf_configs F) -> nth c (sf_pots F) 0%R = k.
