(** * Textbook belief propagation on a list of factors. *)
From Verif Require Import FGraph BPState BP Lists SpecFactor SpecWiring SpecState SpecBP.
From Coq Require Import Reals.
Local Open Scope nat_scope.

Section Textbook.
  Context {A : Type} (fs : list (sfactor A)) (pots : nat -> nat -> R).
  (** Max-product at temperature 0, otherwise sum-product at temperature [T]. *)
  Definition fac_to_var (T : R) (v : msg) : msg :=
    if Req_EM_T T 0 then fac_to_var_max fs pots v else fac_to_var_soft fs pots T v.
  (** Subtract the maximum of every message and clip at -1000. *)
  Definition normal (m : msg) : msg := fun f u s =>
    Rmax (-1000) (m f u s - rmaxs (map (m f u) (seq 0 (snd (var_at fs f u)))))%R.
  Definition damp (d : R) (m new : msg) : msg := fun f u s => (d * m f u s + (1 - d) * new f u s)%R.
  Definition text_step (T d : R) (ev : variable -> nat -> R) (m : msg) : msg :=
    normal (damp d m (fac_to_var T (var_to_fac fs ev m))).
  (** The factor-to-variable messages after [n] iterations from [m]. *)
  Definition text_bp (T d : R) (ev : variable -> nat -> R) (m : msg) (n : nat) : msg :=
    Nat.iter n (text_step T d ev) (normal m).
  (** Beliefs: evidence plus all incoming messages. *)
  Definition text_belief (ev : variable -> nat -> R) (m : msg) (x : variable) (s : nat) : R :=
    (ev x s + rsum (map (fun fu => m (fst fu) (snd fu) s) (slots_of fs x)))%R.

  (** Every message has maximum 0 and entries in [-1000, 0]. *)
  Definition normal_msgs (m : msg) : Prop := forall f u, f < length fs -> u < arity fs f ->
    (exists s, s < snd (var_at fs f u) /\ m f u s = 0%R) /\
    (forall s, s < snd (var_at fs f u) -> (-1000 <= m f u s <= 0)%R).

  (** The messages [v] to the factors keep the code away from NEG_INF. The first [ne]
      factors are enumeration factors: every state of every variable has a valid
      configuration, with a total of at least NEG_INF at temperature 0. The others are
      logical: at temperature 0 no message difference reaches NEG_INF. *)
  Definition in_range (ne : nat) (T : R) (v : msg) : Prop :=
    (forall f u s, f < ne -> u < arity fs f -> s < snd (var_at fs f u) ->
       exists c, In c (choices fs f u s) /\ (T = 0%R -> (neg_inf <= score fs pots v f c)%R)) /\
    (T = 0%R -> forall f u s s', ne <= f < length fs -> u < arity fs f ->
       s < snd (var_at fs f u) -> s' < snd (var_at fs f u) -> (neg_inf < v f u s - v f u s')%R).

  (** Inputs small enough for no value to reach NEG_INF: evidence in [-B, B], potentials at
      least -P, at most [D] factors per variable and [K] variables per enumeration factor,
      and every state of every variable of an enumeration factor in some configuration. *)
  Definition moderate (ne : nat) (ev : variable -> nat -> R) (B P : R) (D K : nat) : Prop :=
    (forall x s, In x (sf_edges fs) -> s < snd x -> (- B <= ev x s <= B)%R) /\
    (forall f c, f < ne -> c < length (sf_configs (factor_at fs f)) -> (- P <= pots f c)%R) /\
    (forall x, length (slots_of fs x) <= D) /\
    (forall f, f < ne -> arity fs f <= K) /\
    (forall f u s, f < ne -> u < arity fs f -> s < snd (var_at fs f u) -> choices fs f u s <> []) /\
    (P + INR K * (B + 1000 * INR D) <= 100000)%R /\ (2 * B + 1000 * INR D < 100000)%R.
End Textbook.

(** ** The factors of a graph *)
(** Enumeration factors first, then OR and AND factors as enumerations of their
    consistent configurations. *)
Definition graph_factors {A} (zero : A) (groups : per_type (list (fgroup A))) : list (sfactor A) :=
  enum_factors groups ++ map (logical_sf zero TOr) (logical_factors TOr groups)
  ++ map (logical_sf zero TAnd) (logical_factors TAnd groups).
(** Their potentials in a flat array; 0 for logical factors. *)
Definition graph_pots {A} (groups : per_type (list (fgroup A))) (lp : list R) (f c : nat) : R :=
  if f <? length (enum_factors groups) then read_pots (enum_factors groups) lp f c else 0%R.

(** A BP context built from a state of the graph, and arrays of the right sizes. *)
Definition bp_of {A} `{Num A} (g : fgraph A) (T : A) (c : bp_ctx A) : Prop :=
  exists junk bs, compile_fg_state junk g = Ok (bs_fg_state bs) /\ BP bs T = Ok c.
Definition arrays_of {A} (c : bp_ctx A) (a : bp_arrays A) : Prop :=
  let st := bs_fg_state (bc_state c) in
  length (ba_log_potentials a) = length (st_log_potentials st) /\
  length (ba_ftov_msgs a) = st_total_factor_num_states st /\
  length (ba_evidence a) = st_num_var_states st.
