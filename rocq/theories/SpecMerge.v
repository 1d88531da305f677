(** * Factors that list the same assignment more than once. *)
From Verif Require Import FGraph BPState BP Lists SpecWiring SpecState SpecBP SpecText SpecPerm.
From Coq Require Import Reals.
Local Open Scope nat_scope.

Definition cfg_eqb (a b : list Z) : bool := if list_eq_dec Z.eq_dec a b then true else false.
(** What the entries for one assignment in a table of configurations and potentials amount to:
    the largest potential at temperature 0, otherwise their soft maximum. *)
Definition weight (T : R) (tab : list (list Z * R)) (cfg : list Z) : R :=
  let l := map snd (filter (fun r => cfg_eqb (fst r) cfg) tab) in
  if Req_EM_T T 0 then rmaxs l else (T * ln (rsum (map (fun x => exp (x / T)) l)))%R.
(** Two tables list the same assignments, however often, with the same weights. *)
Definition equivalent (T : R) (tab tab' : list (list Z * R)) : Prop :=
  (forall cfg, In cfg (map fst tab) <-> In cfg (map fst tab')) /\
  (forall cfg, In cfg (map fst tab) -> weight T tab cfg = weight T tab' cfg).
(** Factor [f] of the first list and factor [p f] of the second have the same variables and
    equivalent tables. *)
Definition alike {A} (T : R) (fs fs' : list (sfactor A)) (pots pots' : nat -> nat -> R) (p : nat -> nat) : Prop :=
  length fs' = length fs /\ (forall f, f < length fs -> p f < length fs) /\
  (forall f g, f < length fs -> g < length fs -> p f = p g -> f = g) /\
  (forall f, f < length fs -> sf_vars (factor_at fs' (p f)) = sf_vars (factor_at fs f) /\
     equivalent T (table fs pots f) (table fs' pots' (p f))).
