(** * Everything a client can obtain from the state of one graph. *)
From Verif Require Import NumPy Lists FGraph BPState BP SpecFGraph SpecWiring SpecState.
Local Open Scope nat_scope.

Section Client.
  Context {A : Type} `{Num A}.
  (** The objects a client works with. *)
  Inductive object := OState (bs : bp_state A) | OArrays (a : bp_arrays A).
  Definition fits (v : option (ndarray A)) : Prop := match v with Some a => wf_arr a | None => True end.

  (** Any sequence of constructions, item assignments and calls of the functions returned
      by BP, at any temperatures, in any order, that did not raise. The functions returned
      by BP for one state may be applied to arrays obtained from another. *)
  Inductive obtained (so : state_obj A) : object -> Prop :=
  | ob_new vl vm ve lp ms ev bs : fits vl -> fits vm -> fits ve ->
      LogPotentials so vl = Ok lp -> FToVMessages so vm = Ok ms -> Evidence so ve = Ok ev ->
      BPState lp ms ev = Ok bs -> obtained so (OState bs)
  | ob_set_potentials bs h d lp : obtained so (OState bs) ->
      LogPotentials_setitem (bs_log_potentials bs) h d = Ok lp ->
      obtained so (OState {| bs_log_potentials := lp; bs_ftov_msgs := bs_ftov_msgs bs; bs_evidence := bs_evidence bs |})
  | ob_set_messages bs v d ms : obtained so (OState bs) ->
      FToVMessages_setitem (bs_ftov_msgs bs) v d = Ok ms ->
      obtained so (OState {| bs_log_potentials := bs_log_potentials bs; bs_ftov_msgs := ms; bs_evidence := bs_evidence bs |})
  | ob_set_evidence bs k d ev : obtained so (OState bs) ->
      Evidence_setitem (bs_evidence bs) k d = Ok ev ->
      obtained so (OState {| bs_log_potentials := bs_log_potentials bs; bs_ftov_msgs := bs_ftov_msgs bs; bs_evidence := ev |})
  | ob_init bs T c lu mu eu a : obtained so (OState bs) -> BP bs T = Ok c ->
      bp_init c lu mu eu = Ok a -> obtained so (OArrays a)
  | ob_update bs T c a lu mu eu a' : obtained so (OState bs) -> BP bs T = Ok c -> obtained so (OArrays a) ->
      bp_update c (Some a) lu mu eu = Ok a' -> obtained so (OArrays a')
  | ob_run bs T c a n d : obtained so (OState bs) -> BP bs T = Ok c -> obtained so (OArrays a) ->
      obtained so (OArrays (run_bp c a n d))
  | ob_back bs T c a bs' : obtained so (OState bs) -> BP bs T = Ok c -> obtained so (OArrays a) ->
      to_bp_state c a = Ok bs' -> obtained so (OState bs').
End Client.
Arguments object A : clear implicits.

(** When a graph over the groups [vgs] compiles: the factors only use variables of the
    groups, enumeration groups have configurations and variables, and of the OR groups and
    of the AND groups only the last one has several factors. *)
Definition compilable {A} (vgs : list vgroup) (groups : per_type (list (fgroup A))) : Prop :=
  (forall x, In x (all_edges groups) -> In x (all_vars vgs)) /\
  Forall has_rows (pt_enum groups) /\
  all_but_last_single (map fg_vars (pt_or groups)) /\ all_but_last_single (map fg_vars (pt_and groups)).
