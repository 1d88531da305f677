(** * Which inputs a message depends on, in one graph or in two. *)
From Verif Require Import FGraph BPState BP Lists SpecFactor SpecWiring SpecState SpecBP SpecText SpecPerm.
From Coq Require Import Reals Permutation.
Local Open Scope nat_scope.

(** [h] permutes the numbers below [n]. *)
Definition perm_below (n : nat) (h : nat -> nat) : Prop :=
  (forall i, i < n -> h i < n) /\ (forall i j, i < n -> j < n -> h i = h j -> i = j).

Section Local.
  Context {A : Type} (fs fs' : list (sfactor A)).
  (** Factor [f] of the first graph corresponds to factor [p f] of the second, its [u]-th variable
      to the [w f u]-th, variable [x] to [r x], and state [s] of [x] to state [t x s]. *)
  Context (p : nat -> nat) (w : nat -> nat -> nat) (r : variable -> variable) (t : variable -> nat -> nat).
  Definition embeds : Prop :=
    (forall f, f < length fs -> p f < length fs' /\ arity fs' (p f) = arity fs f /\ perm_below (arity fs f) (w f) /\
       forall u, u < arity fs f -> var_at fs' (p f) (w f u) = r (var_at fs f u)) /\
    (forall x, In x (sf_edges fs) -> snd (r x) = snd x /\ perm_below (snd x) (t x)).

  Context (pots pots' : nat -> nat -> R) (ev ev' : variable -> nat -> R) (m m' : msg).
  (** The factor has the same configurations and potentials as the other, in some order. *)
  Definition moved (f : nat) (a b : list Z * R) : Prop :=
    snd b = snd a /\ forall u, u < arity fs f ->
      Z.to_nat (nth (w f u) (fst b) 0%Z) = t (var_at fs f u) (Z.to_nat (nth u (fst a) 0%Z)).
  Definition same_factor (f : nat) : Prop :=
    exists l, Permutation (table fs' pots' (p f)) l /\ Forall2 (moved f) (table fs pots f) l.
  (** The variable has the same factors and the same evidence. *)
  Definition place (fu : nat * nat) : nat * nat := (p (fst fu), w (fst fu) (snd fu)).
  Definition same_var (x : variable) : Prop :=
    Permutation (map place (slots_of fs x)) (slots_of fs' (r x)) /\
    forall s, s < snd x -> ev' (r x) (t x s) = ev x s.
  (** Two messages agree. *)
  Definition same_msg (m m' : msg) (f u : nat) : Prop :=
    forall s, s < snd (var_at fs f u) -> m' (p f) (w f u) (t (var_at fs f u) s) = m f u s.

  (** The inputs agree wherever they can reach the message from factor [f] to its [u]-th
      variable within [n] iterations. *)
  Fixpoint same_within (n f u : nat) : Prop :=
    match n with
    | O => same_msg m m' f u
    | S k => same_within k f u /\ same_factor f /\
             forall v, v < arity fs f -> v <> u -> same_var (var_at fs f v) /\
               forall g j, In (g, j) (slots_of fs (var_at fs f v)) -> (g, j) <> (f, v) -> same_within k g j
    end.
End Local.

(** ** Distance *)
(** At most [n] factors lead from variable [x] to variable [y]. *)
Inductive within {A} (fs : list (sfactor A)) (x : variable) : nat -> variable -> Prop :=
| within_refl n : within fs x n x
| within_step n y z f : within fs x n y -> f < length fs -> In y (sf_vars (factor_at fs f)) -> In z (sf_vars (factor_at fs f)) ->
    within fs x (S n) z.

(** ** The same factor written differently *)
(** The configurations of a factor with its own potentials. *)
Definition rows {A} (F : sfactor A) : list (list Z * A) := combine (sf_configs F) (sf_pots F).
(** The [u]-th variable of [F] is the [h u]-th of [F'], and the configurations of [F'] are
    those of [F] with states rearranged accordingly, in any order. *)
Definition reordered {A} (F F' : sfactor A) : Prop :=
  exists h l, perm_below (length (sf_vars F)) h /\ length (sf_vars F') = length (sf_vars F) /\
    (forall u, u < length (sf_vars F) -> nth (h u) (sf_vars F') (0%Z, 0) = nth u (sf_vars F) (0%Z, 0)) /\
    Permutation (rows F') l /\
    Forall2 (fun a b => snd b = snd a /\ forall u, u < length (sf_vars F) -> nth (h u) (fst b) 0%Z = nth u (fst a) 0%Z) (rows F) l.
