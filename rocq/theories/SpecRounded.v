(** * Specifications for rounded arithmetic. *)
From Verif Require Import NumPy Lists FGraph BPState BP Rounded SpecWiring SpecState SpecBP SpecText.
From Coq Require Import Reals.
Local Open Scope R_scope.

(** A rounding function: monotone, leaves its results alone, and exact on the integers up
    to NEG_INF in size. *)
Definition is_rounding (rnd : R -> R) : Prop :=
  (forall x y, x <= y -> rnd x <= rnd y) /\
  (forall x, rnd (rnd x) = rnd x) /\
  (forall z, (-100000 <= z <= 100000)%Z -> rnd (IZR z) = IZR z).
Definition representable (rnd : R -> R) (x : R) : Prop := rnd x = x.

(** run_bp of the model in rounded arithmetic. *)
Definition run_rounded (rnd ex lg : R -> R) : bp_ctx R -> bp_arrays R -> nat -> R -> bp_arrays R :=
  @run_bp R (RoundNum rnd ex lg).
(** The new messages of one iteration, before damping. *)
Definition new_rounded (rnd ex lg : R -> R) (c : bp_ctx R) (a : bp_arrays R) (msgs : list R) : list R :=
  let N := RoundNum rnd ex lg in
  @pass_fac_to_var_messages R N (bs_fg_state (bc_state c)) (bc_temperature c) (ba_log_potentials a)
    (@pass_var_to_fac_messages R N msgs (ba_evidence a) (bc_var_states_for_edges c)).
(** The messages before the normalisation ending the [n]-th iteration. *)
Definition before_normalising (rnd ex lg : R -> R) (c : bp_ctx R) (a : bp_arrays R) (d : R) (n : nat) : list R :=
  match n with
  | O => ba_ftov_msgs a
  | S k => let old := ba_ftov_msgs (run_rounded rnd ex lg c a k d) in
           map2 (fun x y => rnd (x + rnd (rnd (1 - d) * rnd (y - x)))) old (new_rounded rnd ex lg c a old)
  end.

(** Rounding down to multiples of 1/k. *)
Definition floor_to (k : nat) (x : R) : R := IZR (Int_part (x * INR k)) / INR k.
(** A coarse floating-point format: multiples of 1/4 in [-1, 1], integers outside,
    rounding down. *)
Definition coarse (x : R) : R :=
  if Rle_dec x 1 then if Rle_dec (-1) x then floor_to 4 x else floor_to 1 x else floor_to 1 x.
