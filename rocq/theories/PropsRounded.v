(** * Property C47: normalisation, resumption and freezing survive rounding. *)
From Verif Require Import NumPy Lists FGraph BPState BP Rounded SpecFGraph SpecFactor SpecWiring SpecState SpecBP SpecText SpecRounded.
From Verif Require Import LemNum LemRounded ExBP PropsRun.
From Coq Require Import Reals Lra Lia.
Local Open Scope nat_scope.

(** Whatever the rounding, exponential and logarithm: all messages are numbers of the
    format between -1000 and 0. *)
Theorem C47_interval :
  forall rnd ex lg, is_rounding rnd ->
  forall (g : fgraph R) T (c : bp_ctx R), wf_groups (gr_groups g) -> bp_of g T c ->
  forall a, arrays_of c a ->
  let fs := graph_factors 0%R (gr_groups g) in
  forall d n, supported (map snd (sf_edges fs)) ->
  forall f u s, f < length fs -> u < arity fs f -> s < snd (var_at fs f u) ->
  let x := read_msgs fs (ba_ftov_msgs (run_rounded rnd ex lg c a n d)) f u s in
  (-1000 <= x <= 0)%R /\ representable rnd x.
Proof. exact C47_interval_lemma. Qed.
Print Assumptions C47_interval.

(** The maximum of every message is exactly 0. *)
Theorem C47_normalised :
  forall rnd ex lg, is_rounding rnd ->
  forall (g : fgraph R) T (c : bp_ctx R), wf_groups (gr_groups g) -> bp_of g T c ->
  forall a, arrays_of c a ->
  let fs := graph_factors 0%R (gr_groups g) in
  let lens := map snd (sf_edges fs) in
  forall d n, supported lens -> above_floor lens (before_normalising rnd ex lg c a d n) ->
  normal_msgs fs (read_msgs fs (ba_ftov_msgs (run_rounded rnd ex lg c a n d))).
Proof. exact C47_normalised_lemma. Qed.
Print Assumptions C47_normalised.

(** Stopping and resuming gives bit for bit the same arrays. *)
Theorem C47_resume :
  forall rnd ex lg, is_rounding rnd ->
  forall (g : fgraph R) T (c : bp_ctx R), wf_groups (gr_groups g) -> bp_of g T c ->
  forall a, arrays_of c a ->
  let fs := graph_factors 0%R (gr_groups g) in
  let lens := map snd (sf_edges fs) in
  forall d n m, supported lens -> above_floor lens (before_normalising rnd ex lg c a d n) ->
  run_rounded rnd ex lg c (run_rounded rnd ex lg c a n d) m d = run_rounded rnd ex lg c a (n + m) d.
Proof. exact C47_resume_lemma. Qed.
Print Assumptions C47_resume.

(** Damping 1 keeps the normalised initial messages. *)
Theorem C47_freeze :
  forall rnd ex lg, is_rounding rnd ->
  forall (g : fgraph R) T (c : bp_ctx R), wf_groups (gr_groups g) -> bp_of g T c ->
  forall a, arrays_of c a ->
  let fs := graph_factors 0%R (gr_groups g) in
  let lens := map snd (sf_edges fs) in
  forall n, supported lens -> above_floor lens (ba_ftov_msgs a) ->
  run_rounded rnd ex lg c a n 1%R = run_rounded rnd ex lg c a 0 1%R.
Proof. exact C47_freeze_lemma. Qed.
Print Assumptions C47_freeze.

(** Damping 0 does not replace the old messages by the new ones: [m + 1 * (new - m)] loses
    digits of [new]. *)
Theorem C47_undamped_refuted :
  ~ (forall rnd ex lg msgs new, is_rounding rnd -> length msgs = length new ->
     Forall (representable rnd) msgs -> Forall (representable rnd) new ->
     let N := RoundNum rnd ex lg in
     @vadd R N msgs (map (@nmul R N (@nsub R N (@n1 R N) 0%R)) (@vsub R N new msgs)) = new).
Proof. exact C47_undamped_refuted_lemma. Qed.
Print Assumptions C47_undamped_refuted.

(** Rounding functions exist: fixed point, and a format with two precisions; neither is
    the identity. *)
Example C47_roundings : is_rounding (floor_to 1024) /\ is_rounding coarse /\ floor_to 1024 (/ 3)%R <> (/ 3)%R.
Proof.
  split; [apply floor_to_rounding; lia|]. split; [exact coarse_rounding|]. intros E. unfold floor_to in E.
  assert (F : (IZR (Int_part (/ 3 * INR 1024) * 3) = IZR 1024)%R).
  { rewrite mult_IZR. replace (IZR 1024) with (INR 1024) by (rewrite INR_IZR_INZ; reflexivity).
    assert (P : INR 1024 <> 0%R) by (rewrite INR_IZR_INZ; change (Z.of_nat 1024) with 1024%Z; lra).
    apply (Rmult_eq_reg_r (/ INR 1024)%R); [|now apply Rinv_neq_0_compat]. rewrite Rinv_r by exact P.
    replace (IZR (Int_part (/ 3 * INR 1024)) * 3 * / INR 1024)%R with (IZR (Int_part (/ 3 * INR 1024)) / INR 1024 * 3)%R by (unfold Rdiv; ring).
    rewrite E. lra. }
  apply eq_IZR in F. lia.
Qed.
(** The example graph, both kinds of factors, any temperature, exponential and logarithm. *)
Example C47_nonvacuous : forall T ex lg n,
  let run a n := run_rounded (floor_to 1024) ex lg (ex_c T) a n 1%R in
  run ex_a n = run ex_a 0 /\ normal_msgs ex_rfs (read_msgs ex_rfs (ba_ftov_msgs (run ex_a n))) /\ run (run ex_a 0) n = run ex_a n.
Proof.
  intros T ex lg n run. destruct (ex_given T) as [_ [_ [H3 [H4 H5]]]]. pose proof (proj1 C47_roundings) as Hr.
  assert (E : run ex_a n = run ex_a 0) by (apply (C47_freeze _ ex lg Hr ex_g T (ex_c T) H3 H4 ex_a H5); [exact ex_supported|exact ex_above]).
  split; [exact E|]. split; [rewrite E|].
  - apply (C47_normalised _ ex lg Hr ex_g T (ex_c T) H3 H4 ex_a H5); [exact ex_supported|exact ex_above].
  - apply (C47_resume _ ex lg Hr ex_g T (ex_c T) H3 H4 ex_a H5 1%R 0 n); [exact ex_supported|exact ex_above].
Qed.
