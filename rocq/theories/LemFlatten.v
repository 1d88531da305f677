(** * Which arrays unflatten of a factor group accepts. *)
From Verif Require Import Py NumPy Factor FGroup SpecFactor LemFactor.
From Coq Require Import Lia.
Local Open Scope nat_scope.

Lemma one_axis (s : list nat) : (length s =? 1) = true <-> exists k, s = [k].
Proof.
  rewrite Nat.eqb_eq. destruct s as [|k [|k' s]]; cbn; split; try discriminate; try (intros [x E]; discriminate); [now exists k|reflexivity].
Qed.
Lemma two_sizes {A} (f : ndarray A) (a b : nat) (sa sb : list nat) :
  wf_arr f -> a = prod sa -> b = prod sb ->
  let r := if negb (length (shape f) =? 1) then Raise ValueError else
           if length (data f) =? a then Ok (mkArr sa (data f)) else if length (data f) =? b then Ok (mkArr sb (data f)) else Raise ValueError in
  (forall d, r = Ok d <-> exists k, shape f = [k] /\ data d = data f /\ (k = a /\ shape d = sa \/ k <> a /\ k = b /\ shape d = sb)) /\
  (forall e, r = Raise e -> e = ValueError).
Proof.
  intros Hw Ha Hb r. unfold r. unfold wf_arr in Hw. destruct (length (shape f) =? 1) eqn:E1; cbn [negb].
  - apply one_axis in E1. destruct E1 as [k E1]. rewrite E1 in Hw. cbn in Hw. assert (Hk : length (data f) = k) by lia. rewrite Hk, E1.
    destruct (Nat.eqb_spec k a) as [Ek|Ek]; [|destruct (Nat.eqb_spec k b) as [Eb|Eb]].
    + split; [|discriminate]. intros [sd dd]. split.
      * intros E. injection E as <- <-. exists k. cbn. auto.
      * intros [k' [E [Ed Es]]]. injection E as <-. cbn in *. destruct Es as [[_ Es]|[H _]]; [now rewrite Es, Ed|contradiction].
    + split; [|discriminate]. intros [sd dd]. split.
      * intros E. injection E as <- <-. exists k. cbn. split; [reflexivity|]. split; [reflexivity|]. right. auto.
      * intros [k' [E [Ed Es]]]. injection E as <-. cbn in *. destruct Es as [[H _]|[_ [_ Es]]]; [contradiction|now rewrite Es, Ed].
    + split; [|intros e E; now injection E]. intros d. split; [discriminate|]. intros [k' [E [_ [[H _]|[_ [H _]]]]]]; injection E as <-; contradiction.
  - split; [|intros e E; now injection E]. intros d. split; [discriminate|]. intros [k [E _]]. rewrite E in E1. discriminate.
Qed.
Lemma C14_unflatten_lemma {A} (g : fgroup A) (f : ndarray A) :
  valid_group g -> distinct_sets (fg_vars g) -> wf_arr f ->
  let nf := length (fg_vars g) in
  (forall nc ne, fg_kind g = KEnum -> nth 0 (shape (fg_configs g)) 0 = nc -> list_sum (map snd (nth 0 (fg_vars g) [])) = ne ->
     (forall d, fg_unflatten g f = Ok d <->
        exists k, shape f = [k] /\ data d = data f /\ (k = nf * nc /\ shape d = [nf; nc] \/ k <> nf * nc /\ k = nf * ne /\ shape d = [nf; ne])) /\
     (forall e, fg_unflatten g f = Raise e -> e = ValueError)) /\
  (forall n m, fg_kind g = KPairwise n m ->
     (forall d, fg_unflatten g f = Ok d <->
        exists k, shape f = [k] /\ data d = data f /\
          (k = nf * (n * m) /\ shape d = [nf; n; m] \/ k <> nf * (n * m) /\ k = nf * (n + m) /\ shape d = [nf; n + m])) /\
     (forall e, fg_unflatten g f = Raise e -> e = ValueError)) /\
  (fg_kind g = KLogical \/ fg_kind g = KSingle ->
     fg_unflatten g f = Raise NotImplementedError /\ forall d, fg_flatten g d = Raise NotImplementedError).
Proof.
  intros Hv Hd Hw nf. destruct (fg_factors_valid g Hv Hd) as [fs [E [Hl _]]]. unfold fg_flatten, fg_unflatten. split; [|split].
  - intros nc ne Hk Hnc Hne. rewrite Hk, E. cbn [bind]. rewrite Hl, Hnc. unfold fg_first_edges. rewrite Hne. fold nf.
    apply (two_sizes f (nf * nc) (nf * ne) [nf; nc] [nf; ne] Hw); cbn; lia.
  - intros n m Hk. rewrite Hk, E. cbn [bind]. rewrite Hl. fold nf.
    apply (two_sizes f (nf * (n * m)) (nf * (n + m)) [nf; n; m] [nf; n + m] Hw); cbn; lia.
  - intros [Hk|Hk]; rewrite Hk; split; reflexivity.
Qed.
