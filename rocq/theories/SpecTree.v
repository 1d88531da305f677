(** * Acyclic graphs and exact inference. *)
From Verif Require Import FGraph BPState BP Lists SpecFactor SpecWiring SpecState SpecBP SpecText.
From Coq Require Import Reals.
Local Open Scope nat_scope.

Section Tree.
  Context {A : Type} (fs : list (sfactor A)).

  (** ** Cycles *)
  (** A passage through factor [sp_factor], entering by one slot and leaving by another. *)
  Record passage := Pass { sp_factor : nat; sp_in : nat; sp_out : nat }.
  Definition in_var (p : passage) : variable := var_at fs (sp_factor p) (sp_in p).
  Definition out_var (p : passage) : variable := var_at fs (sp_factor p) (sp_out p).
  Definition valid_passage (p : passage) : Prop :=
    sp_factor p < length fs /\ sp_in p < arity fs (sp_factor p) /\ sp_out p < arity fs (sp_factor p) /\ sp_in p <> sp_out p.
  Definition rotate {B} (l : list B) : list B := match l with [] => [] | x :: r => r ++ [x] end.
  (** A closed path: the variable by which each passage leaves is the one by which the
      next enters. No factor and no variable is visited twice. *)
  Definition cycle (l : list passage) : Prop :=
    l <> [] /\ Forall valid_passage l /\ map out_var l = map in_var (rotate l) /\
    NoDup (map sp_factor l) /\ NoDup (map out_var l).
  Definition acyclic : Prop := forall l, ~ cycle l.

  (** ** Joint assignments *)
  (** A state for every variable and a configuration for every factor that agree. *)
  Definition consistent (st : variable -> nat) (cf : nat -> nat) : Prop :=
    forall f, f < length fs -> cf f < length (sf_configs (factor_at fs f)) /\
      forall u, u < arity fs f -> config_at_slot fs f (cf f) u = st (var_at fs f u).
  (** Evidence of the states plus potentials of the configurations. *)
  Definition joint_score (pots : nat -> nat -> R) (ev : variable -> nat -> R) (xs : list variable)
      (st : variable -> nat) (cf : nat -> nat) : R :=
    (rsum (map (fun x => ev x (st x)) xs) + rsum (map (fun f => pots f (cf f)) (seq 0 (length fs))))%R.
  (** The assignments of a graph with variables [xs]. *)
  Definition joint (xs : list variable) (st : variable -> nat) (cf : nat -> nat) : Prop :=
    (forall x, In x xs -> st x < snd x) /\ consistent st cf.
  (** [v] is the largest score of an assignment that gives [x] the state [s]. *)
  Definition max_marginal pots ev xs (x : variable) (s : nat) (v : R) : Prop :=
    (exists st cf, joint xs st cf /\ st x = s /\ joint_score pots ev xs st cf = v) /\
    (forall st cf, joint xs st cf -> st x = s -> (joint_score pots ev xs st cf <= v)%R).

  (** Normalisation does not clip. *)
  Definition unclipped (m : msg) : Prop := forall f u s, f < length fs -> u < arity fs f -> s < snd (var_at fs f u) ->
    (-1000 <= m f u s - rmaxs (map (m f u) (seq 0 (snd (var_at fs f u)))))%R.
  (** Inputs small enough for that at temperature [T]: the potentials of a factor differ by at
      most [P], the evidence of a variable by at most [B], initial messages by at most [M].
      [N] bounds the numbers of configurations; it does not matter at temperature 0. *)
  Definition small (T : R) (pots : nat -> nat -> R) (ev : variable -> nat -> R) (m : msg) (P B M : R) (N : nat) : Prop :=
    (0 <= P /\ 0 <= B /\ 0 <= M)%R /\ 0 < N /\
    (forall f c c', f < length fs -> c < length (sf_configs (factor_at fs f)) ->
       c' < length (sf_configs (factor_at fs f)) -> (pots f c - pots f c' <= P)%R) /\
    (forall x s s', In x (sf_edges fs) -> s < snd x -> s' < snd x -> (ev x s - ev x s' <= B)%R) /\
    (forall f u s s', f < length fs -> u < arity fs f -> s < snd (var_at fs f u) -> s' < snd (var_at fs f u) ->
       (m f u s - m f u s' <= M)%R) /\
    (T <> 0%R -> forall f, f < length fs -> length (sf_configs (factor_at fs f)) <= N) /\
    (INR (length fs) * (P + T * ln (INR N)) + INR (length (slots fs)) * (B + M) <= 1000)%R.
End Tree.
