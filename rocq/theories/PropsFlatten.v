(** * Property C14 (continued): unflatten. *)
From Verif Require Import Py NumPy Factor FGroup SpecFactor LemFactor LemFlatten PropsFactor.
From Coq Require Import Lia QArith.
Local Close Scope Q_scope.
Local Open Scope nat_scope.

(** Unflatten accepts vectors of two lengths. Potentials take precedence over messages. *)
Theorem C14_unflatten :
  forall (A : Type) (g : fgroup A) (f : ndarray A),
  valid_group g -> distinct_sets (fg_vars g) -> wf_arr f ->
  let nf := length (fg_vars g) in
  (forall nc ne, fg_kind g = KEnum -> nth 0 (shape (fg_configs g)) 0 = nc -> list_sum (map snd (nth 0 (fg_vars g) [])) = ne ->
     (forall d, fg_unflatten g f = Ok d <->
        exists k, shape f = [k] /\ data d = data f /\ (k = nf * nc /\ shape d = [nf; nc] \/ k <> nf * nc /\ k = nf * ne /\ shape d = [nf; ne])) /\
     (forall e, fg_unflatten g f = Raise e -> e = ValueError)) /\
  (forall n m, fg_kind g = KPairwise n m ->
     (forall d, fg_unflatten g f = Ok d <->
        exists k, shape f = [k] /\ data d = data f /\
          (k = nf * (n * m) /\ shape d = [nf; n; m] \/ k <> nf * (n * m) /\ k = nf * (n + m) /\ shape d = [nf; n + m])) /\
     (forall e, fg_unflatten g f = Raise e -> e = ValueError)) /\
  (fg_kind g = KLogical \/ fg_kind g = KSingle ->
     fg_unflatten g f = Raise NotImplementedError /\ forall d, fg_flatten g d = Raise NotImplementedError).
Proof. exact (fun A => @C14_unflatten_lemma A). Qed.
Print Assumptions C14_unflatten.

(** The group of [C14_nonvacuous] meets the hypotheses; an enumeration group does too. *)
Example C14_unflatten_nonvacuous :
  let a := (10%Z, 2) in let b := (11%Z, 3) in
  exists g : fgroup Q,
    EnumFactorGroup 1 [[a; b]; [b; (12%Z, 2)]] (mkArr [3; 2] [0; 0; 1; 1; 1; 0]%Z) None = Ok g /\
    valid_group g /\ distinct_sets (fg_vars g) /\ fg_kind g = KEnum /\
    (let d := map inject_Z [1; 2; 3; 4; 5; 6; 7; 8; 9; 10]%Z in
     fg_unflatten g (mkArr [10] d) = Ok (mkArr [2; 5] d) /\
     fg_unflatten g (mkArr [6] (firstn 6 d)) = Ok (mkArr [2; 3] (firstn 6 d)) /\
     fg_unflatten g (mkArr [2; 3] (firstn 6 d)) = Raise ValueError /\
     fg_unflatten g (mkArr [7] (firstn 7 d)) = Raise ValueError).
Proof.
  cbv zeta. eexists. split; [reflexivity|]. split; [|split; [|split; [reflexivity|repeat split]]].
  - exists 3. split; [reflexivity|]. intros vs Hvs. split; [destruct Hvs as [<-|[<-|[]]]; reflexivity|].
    intros r u x Hr Hu. destruct r as [|[|[|r]]]; [| | |lia];
      destruct Hvs as [<-|[<-|[]]]; (destruct u as [|[|[|u]]]; cbn in Hu; try discriminate; injection Hu as <-; vm_compute; split; congruence).
  - constructor; [|repeat constructor]. constructor; [|constructor].
    intros H. destruct (H (10%Z, 2)) as [H1 _]. destruct (H1 (or_introl eq_refl)) as [E|[E|[]]]; discriminate.
Qed.
