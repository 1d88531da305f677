(** * Property C15 (continued): groups with several factors on one set of variables. *)
From Verif Require Import Py Factor FGroup SpecFactor SpecDup LemFactor LemDup.
From Coq Require Import Lia QArith Sorting.Sorted.
Local Close Scope Q_scope.
Local Open Scope nat_scope.

(** The lookup returns the last such factor. The factors property has one factor per set
    of variables, in the order in which the sets first occur. *)
Theorem C15_duplicates :
  forall (A : Type) (g : fgroup A), valid_group g ->
  (forall q i vs, last_of_set (fg_vars g) i -> nth_error (fg_vars g) i = Some vs -> same_set q vs ->
     exists f, fg_getitem g q = Ok f /\ is_factor g i f) /\
  (forall q, (forall vs, In vs (fg_vars g) -> ~ same_set q vs) -> fg_getitem g q = Raise ValueError) /\
  exists fs idx, fg_factors g = Ok fs /\ StronglySorted lt idx /\ (forall i, In i idx <-> first_of_set (fg_vars g) i) /\
    length fs = length idx /\
    forall k i f, nth_error idx k = Some i -> nth_error fs k = Some f ->
      exists j vs ws, nth_error (fg_vars g) i = Some vs /\ nth_error (fg_vars g) j = Some ws /\ same_set vs ws /\
        last_of_set (fg_vars g) j /\ is_factor g j f.
Proof. exact (fun A => @C15_duplicates_lemma A). Qed.
Print Assumptions C15_duplicates.

Example C15_duplicates_nonvacuous :
  let a := (10%Z, 2) in let b := (11%Z, 2) in let c := (12%Z, 2) in
  exists g : fgroup Q,
    EnumFactorGroup 1 [[a; b]; [b; c]; [b; a]] (mkArr [1; 2] [0; 1]%Z) (Some (true, mkArr [3; 1] (map inject_Z [5; 6; 7]%Z))) = Ok g /\
    valid_group g /\
    (exists e, fg_getitem g [a; b] = Ok (FEnum e) /\ ef_variables e = [b; a] /\ ef_log_potentials e = [inject_Z 7]) /\
    exists fs, fg_factors g = Ok fs /\ map factor_variables fs = [[b; a]; [b; c]].
Proof.
  cbv zeta. eexists. split; [reflexivity|]. split; [|split].
  - exists 1. split; [reflexivity|]. intros vs Hvs. split; [destruct Hvs as [<-|[<-|[<-|[]]]]; reflexivity|].
    intros r u x Hr Hu. destruct r as [|r]; [|lia].
    destruct Hvs as [<-|[<-|[<-|[]]]]; (destruct u as [|[|[|u]]]; cbn in Hu; try discriminate; injection Hu as <-; vm_compute; split; congruence).
  - eexists. split; [vm_compute; reflexivity|]. split; reflexivity.
  - eexists. split; vm_compute; reflexivity.
Qed.
