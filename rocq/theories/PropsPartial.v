(** * Property C50: no logarithm of zero, no division by zero. *)
From Verif Require Import NumPy Lists FGraph BPState BP Partial SpecFGraph SpecFactor SpecWiring SpecState SpecBP SpecText.
From Verif Require Import LemPartial ExBP PropsRun.
From Coq Require Import Reals Lra Lia.
Local Close Scope R_scope.
Local Open Scope nat_scope.

(** ** C50 *)
(** Whatever the logarithm returns outside its domain and the quotient by zero, run_bp
    returns the same arrays: at temperature 0 on every graph, at other temperatures when
    every state occurs in some configuration of every enumeration factor. *)
Theorem C50_run :
  forall (lg dv : R -> R) vgs (g : fgraph R) T (c : bp_ctx R) a d n,
  groups_ok vgs -> reachable vgs g -> wf_groups (gr_groups g) -> bp_of g T c -> arrays_of c a ->
  (T <> 0%R -> covered (enum_factors (gr_groups g))) ->
  @run_bp R (PartialNum lg dv) c a n d = @run_bp R RNum c a n d.
Proof. exact W_run. Qed.
Print Assumptions C50_run.

(** The sum-product messages of logical factors, for any incoming messages; also the
    intermediate results that are overwritten for factors with a single parent. *)
Theorem C50_logical :
  forall (lg dv : R -> R) T (parents : list (Z * R)) children num_factors,
  T <> 0%R -> (forall x, In x parents -> (0 <= fst x < Z.of_nat num_factors)%Z) ->
  @logical_sum_product R (PartialNum lg dv) T (map snd parents) children (map fst parents) num_factors
  = @logical_sum_product R RNum T (map snd parents) children (map fst parents) num_factors.
Proof. exact W_logical_sum. Qed.
Print Assumptions C50_logical.

(** Marginals of any beliefs. *)
Theorem C50_marginals :
  forall (lg dv : R -> R) beliefs,
  @get_marginals R (PartialNum lg dv) beliefs = @get_marginals R RNum beliefs.
Proof. exact W_marginals. Qed.
Print Assumptions C50_marginals.

(** Updates of messages, also of variables without factors. *)
Theorem C50_update :
  forall (lg dv : R -> R) (st : fg_state R) msgs updates,
  @update_ftov_msgs R (PartialNum lg dv) st msgs updates = @update_ftov_msgs R RNum st msgs updates.
Proof. exact W_update. Qed.
Print Assumptions C50_update.

(** A state in no configuration gets a message that contains the logarithm of zero: the
    hypothesis of C50_run is needed. *)
Theorem C50_uncovered :
  forall (lg dv : R -> R) (fs : list (sfactor R)) vt lp T f u s,
  configs_ok fs -> length vt = total_states fs -> T <> 0%R ->
  f < length fs -> u < arity fs f -> s < snd (var_at fs f u) -> choices fs f u s = [] ->
  read_msgs fs (@pass_enum_fac_to_var_messages R (PartialNum lg dv) vt (sf_rows fs) lp (total_configs fs) T) f u s
  = (neg_inf - read_msgs fs vt f u s + T * lg 0)%R.
Proof. exact (fun lg dv => @W_uncovered lg dv R). Qed.
Print Assumptions C50_uncovered.

Lemma ex_covered : covered (enum_factors (gr_groups ex_g)).
Proof.
  intros f u s Hf Hu Hs. assert (Hf2 : f < 2) by exact Hf.
  destruct f as [|[|]]; [| |lia]; (destruct u as [|[|]]; [| |exfalso; vm_compute in Hu; lia]);
    (destruct s as [|[|[|]]]; try (exfalso; vm_compute in Hs; lia); vm_compute; discriminate).
Qed.
(** The example graph with enumeration, OR and AND factors, and a logarithm that is 7 and a
    quotient that is 3 outside the domain. *)
Example C50_nonvacuous : forall T n,
  @run_bp R (PartialNum (fun _ => 7) (fun _ => 3))%R (ex_c T) ex_a n (1 / 2)%R = @run_bp R RNum (ex_c T) ex_a n (1 / 2)%R.
Proof.
  intros T n. destruct (ex_given T) as [H1 [H2 [H3 [H4 H5]]]].
  apply (C50_run _ _ ex_vgs ex_g T); auto. intros _. exact ex_covered.
Qed.
(** The two logarithms do differ. *)
Example C50_differ : @nln R (PartialNum (fun _ => 7) (fun _ => 3))%R 0%R <> @nln R RNum 0%R.
Proof. unfold PartialNum, RNum. cbn [nln]. unfold ln. destruct (Rlt_dec 0 0) as [H|_]; [exfalso; lra|intros H; lra]. Qed.
(** An OR factor with one parent and one with two: the remaining sum is 0 for the first. *)
Example C50_logical_nonvacuous : forall lg dv,
  @logical_sum_product R (PartialNum lg dv) 1%R [2; -1; 3]%R [1; 5]%R [0; 1; 1]%Z 2
  = @logical_sum_product R RNum 1%R [2; -1; 3]%R [1; 5]%R [0; 1; 1]%Z 2.
Proof.
  intros lg dv. apply (C50_logical lg dv 1%R [(0%Z, 2%R); (1%Z, (-1)%R); (1%Z, 3%R)]); [lra|].
  intros x Hx. cbn [In] in Hx. repeat (destruct Hx as [<-|Hx]; [cbn [fst]; lia|]). destruct Hx.
Qed.
(** One variable of two states and the only configuration (0). *)
Example C50_uncovered_nonvacuous : forall lg dv,
  let fs := [SF [(0%Z, 2)] [[0%Z]] [0%R]] in
  choices fs 0 0 1 = [] /\
  read_msgs fs (@pass_enum_fac_to_var_messages R (PartialNum lg dv) [0; 4]%R (sf_rows fs) [0%R] 1 2%R) 0 0 1
  = (neg_inf - 4 + 2 * lg 0)%R.
Proof.
  intros lg dv fs. split; [reflexivity|].
  apply (C50_uncovered lg dv fs [0; 4]%R [0%R] 2%R 0 0 1); try reflexivity; try (vm_compute; lia); [|lra].
  intros f c u Hf Hc. assert (f = 0) as -> by (cbn in Hf; lia). assert (c = 0) as -> by (cbn in Hc; lia).
  split; [reflexivity|]. intros Hu. assert (u = 0) as -> by (cbn in Hu; lia). vm_compute. split; [discriminate|reflexivity].
Qed.
