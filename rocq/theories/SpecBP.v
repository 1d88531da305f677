(** * Specification of belief propagation, over functions instead of flat arrays. *)
From Verif Require Import FGraph BPState BP Lists SpecFactor SpecWiring SpecState.
From Coq Require Import Reals.
Local Open Scope nat_scope.

(** ** Sums and maxima *)
Definition rsum (l : list R) : R := fold_right Rplus 0%R l.
(** Maximum of [a] and the elements of [l]. *)
Definition rmax (a : R) (l : list R) : R := fold_right Rmax a l.
(** Maximum of a non-empty list. *)
Definition rmaxs (l : list R) : R := match l with [] => 0%R | x :: r => rmax x r end.

(** The number the code uses instead of minus infinity. *)
Definition neg_inf : R := (-100000)%R.

(** ** Messages *)
(** Message between factor [f] and its [u]-th variable, for state [s]. *)
Definition msg := nat -> nat -> nat -> R.

Section Factors.
  (** The factors; their own potentials are not used, [pots f c] is the potential of
      configuration [c] of factor [f]. *)
  Context {A : Type} (fs : list (sfactor A)) (pots : nat -> nat -> R).

  Definition factor_at (f : nat) : sfactor A := nth f fs (SF [] [] []).
  Definition arity (f : nat) : nat := length (sf_vars (factor_at f)).
  Definition var_at (f u : nat) : variable := nth u (sf_vars (factor_at f)) (0%Z, 0).
  Definition config_at_slot (f c u : nat) : nat :=
    Z.to_nat (nth u (nth c (sf_configs (factor_at f)) []) 0%Z).
  (** All pairs of a factor and one of its variable slots. *)
  Definition slots : list (nat * nat) :=
    flat_map (fun f => map (pair f) (seq 0 (arity f))) (seq 0 (length fs)).
  Definition slots_of (x : variable) : list (nat * nat) :=
    filter (fun fu => var_eqb (var_at (fst fu) (snd fu)) x) slots.
  Definition slot_eqb (a b : nat * nat) : bool := (fst a =? fst b) && (snd a =? snd b).

  (** Variable to factor: evidence plus the messages of the variable's other slots. *)
  Definition var_to_fac (ev : variable -> nat -> R) (m : msg) : msg := fun f u s =>
    let x := var_at f u in
    (ev x s + rsum (map (fun fu => m (fst fu) (snd fu) s)
                        (filter (fun fu => negb (slot_eqb fu (f, u))) (slots_of x))))%R.

  (** The configurations of factor [f] with variable [u] in state [s]. *)
  Definition choices (f u s : nat) : list nat :=
    filter (fun c => config_at_slot f c u =? s) (seq 0 (length (sf_configs (factor_at f)))).
  (** Potential of a configuration plus the messages of all variables, or of all
      variables but the [u]-th. *)
  Definition score (v : msg) (f c : nat) : R :=
    (pots f c + rsum (map (fun u => v f u (config_at_slot f c u)) (seq 0 (arity f))))%R.
  Definition score_but (v : msg) (f c u : nat) : R :=
    (pots f c + rsum (map (fun u' => v f u' (config_at_slot f c u'))
                          (filter (fun u' => negb (u' =? u)) (seq 0 (arity f)))))%R.

  (** Factor to variable: maximum over the configurations, and soft maximum at
      temperature [T]. *)
  Definition fac_to_var_max (v : msg) : msg := fun f u s =>
    rmaxs (map (fun c => score_but v f c u) (choices f u s)).
  Definition fac_to_var_soft (T : R) (v : msg) : msg := fun f u s =>
    (T * ln (rsum (map (fun c => exp (score_but v f c u / T)) (choices f u s))))%R.
  (** What the code computes at temperature 0: with a floor. *)
  Definition fac_to_var_floor (v : msg) : msg := fun f u s =>
    (rmax neg_inf (map (score v f) (choices f u s)) - v f u s)%R.

  (** Every state of every variable occurs in some configuration. *)
  Definition covered : Prop :=
    forall f u s, f < length fs -> u < arity f -> s < snd (var_at f u) -> choices f u s <> [].
End Factors.

(** Configurations list one legal state per variable. *)
Definition configs_ok {A} (fs : list (sfactor A)) : Prop :=
  forall f c u, f < length fs -> c < length (sf_configs (factor_at fs f)) ->
    length (nth c (sf_configs (factor_at fs f)) []) = arity fs f /\
    (u < arity fs f ->
     (0 <= nth u (nth c (sf_configs (factor_at fs f)) []) 0 < Z.of_nat (snd (var_at fs f u)))%Z).

(** ** Flat arrays *)
(** Position of a message in the flat arrays. *)
Definition slot_index {A} (fs : list (sfactor A)) (f u s : nat) : nat :=
  edge_start (sf_edges fs) (sf_first_edge fs f + u) + s.
Definition read_msgs {A} (fs : list (sfactor A)) (a : list R) : msg := fun f u s =>
  nth (slot_index fs f u s) a 0%R.
Definition read_pots {A} (fs : list (sfactor A)) (lp : list R) (f c : nat) : R :=
  nth (sf_first_config fs f + c) lp 0%R.
Definition read_ev (starts : list (variable * nat)) (a : list R) (x : variable) (s : nat) : R :=
  nth (start_of starts x + s) a 0%R.
Definition total_states {A} (fs : list (sfactor A)) : nat := list_sum (map snd (sf_edges fs)).
Definition total_configs {A} (fs : list (sfactor A)) : nat :=
  list_sum (map (fun F => length (sf_configs F)) fs).
(** Equality of messages on all slots and states. *)
Definition msg_eq {A} (fs : list (sfactor A)) (m m' : msg) : Prop :=
  forall f u s, f < length fs -> u < arity fs f -> s < snd (var_at fs f u) -> m f u s = m' f u s.
(** Equality up to a constant per slot. *)
Definition msg_eq_upto {A} (fs : list (sfactor A)) (m m' : msg) : Prop :=
  forall f u, f < length fs -> u < arity fs f -> exists k : R,
    forall s, s < snd (var_at fs f u) -> m f u s = (m' f u s + k)%R.

(** ** Logical factors *)
(** All assignments of [k] boolean variables. *)
Fixpoint bools (k : nat) : list (list Z) :=
  match k with
  | O => [[]]
  | S j => flat_map (fun b => [0%Z :: b; 1%Z :: b]) (bools j)
  end.
Definition connective (t : ftype) (b : list Z) : Z :=
  match t with
  | TAnd => if forallb (Z.eqb 1) b then 1 else 0
  | _ => if existsb (Z.eqb 1) b then 1 else 0
  end.
(** A logical factor as an enumeration factor: the configurations in which the last
    variable is the disjunction (conjunction) of the others, with potential 0. *)
Definition logical_configs (t : ftype) (k : nat) : list (list Z) :=
  map (fun b => b ++ [connective t b]) (bools k).
Definition logical_sf {A} (zero : A) (t : ftype) (vs : list variable) : sfactor A :=
  SF vs (logical_configs t (length vs - 1)) (map (fun _ => zero) (logical_configs t (length vs - 1))).

(** ** Normalisation *)
(** The [e]-th of consecutive segments of the given lengths. *)
Definition segment {B} (lens : list nat) (a : list B) (e : nat) : list B :=
  slice a (off lens e) (off lens e + nth e lens 0).
(** Array sizes for which the code's segment maxima are right. *)
Definition supported (lens : list nat) : Prop :=
  (Z.of_nat (list_sum lens + nat_max lens) <= 100000)%Z /\ forall n, In n lens -> 0 < n.
(** No segment lies entirely below NEG_INF (segments of maximal length may). *)
Definition above_floor (lens : list nat) (a : list R) : Prop :=
  forall e, e < length lens -> nth e lens 0 = nat_max lens \/ (neg_inf <= rmaxs (segment lens a e))%R.
(** Every segment has maximum 0 and entries in [-1000, 0]. *)
Definition normalised (lens : list nat) (a : list R) : Prop :=
  forall e, e < length lens -> rmaxs (segment lens a e) = 0%R /\
    forall x, In x (segment lens a e) -> (-1000 <= x <= 0)%R.
(** The messages before the normalisation ending the [n]-th iteration: initially the given
    messages. *)
Definition damped (c : bp_ctx R) (lp ev : list R) (d : R) (msgs : list R) : list R :=
  let new := pass_fac_to_var_messages (bs_fg_state (bc_state c)) (bc_temperature c) lp
               (pass_var_to_fac_messages msgs ev (bc_var_states_for_edges c)) in
  map2 (fun x y => d * x + (1 - d) * y)%R msgs new.
Definition unnormalised (c : bp_ctx R) (a : bp_arrays R) (d : R) (n : nat) : list R :=
  match n with
  | O => ba_ftov_msgs a
  | S k => damped c (ba_log_potentials a) (ba_evidence a) d (ba_ftov_msgs (run_bp c a k d))
  end.

(** ** Layout of the evidence *)
(** The variables occupy disjoint blocks of an array of [n] values. *)
Definition disjoint_layout (starts : list (variable * nat)) (es : list variable) (n : nat) : Prop :=
  (forall x, In x es -> start_of starts x + snd x <= n) /\
  (forall x y, In x es -> In y es -> x <> y ->
     start_of starts x + snd x <= start_of starts y \/ start_of starts y + snd y <= start_of starts x).
