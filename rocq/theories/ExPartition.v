(** * Two binary variables in two factors, for C72. *)
From Verif Require Import FGraph BPState BP Lists SpecFactor SpecWiring SpecState SpecBP SpecText SpecTree SpecSum SpecFix SpecBound LemNum.
From Coq Require Import Reals Lra Lia.
Local Open Scope nat_scope.

Definition pr_x : variable := (1%Z, 2).
Definition pr_y : variable := (2%Z, 2).
(** Both factors prefer equal states with weight 3. *)
Definition pr_factor : sfactor R := SF [pr_x; pr_y] [[0; 0]; [0; 1]; [1; 0]; [1; 1]]%Z [ln 3; 0%R; 0%R; ln 3].
Definition pr_fs : list (sfactor R) := [pr_factor; pr_factor].
Definition pr_pots (f c : nat) : R := match c with 0 | 3 => ln 3 | _ => 0%R end.
Definition pr_ev (x : variable) (s : nat) : R := 0%R.
Definition pr_m : msg := fun _ _ _ => 0%R.
Lemma pr_exp3 : exp (ln 3 / 1) = 3%R. Proof. unfold Rdiv. rewrite Rinv_1, Rmult_1_r. apply exp_ln. lra. Qed.
Lemma pr_exp0 : exp (0 / 1) = 1%R. Proof. unfold Rdiv. rewrite Rmult_0_l. apply exp_0. Qed.
Lemma pr_arity f : f < length pr_fs -> arity pr_fs f = 2.
Proof. intros Hf. destruct f as [|[|]]; [reflexivity|reflexivity|cbn in Hf; lia]. Qed.
Lemma pr_configs : configs_ok pr_fs.
Proof.
  intros f c u Hf Hc. assert (Hf2 : f < 2) by exact Hf.
  destruct f as [|[|]]; [| |lia]; (assert (Hc4 : c < 4) by exact Hc; destruct c as [|[|[|[|]]]]; try lia;
    (split; [reflexivity|]; intros Hu; assert (Hu2 : u < 2) by exact Hu; destruct u as [|[|]]; try lia; cbn; lia)).
Qed.
Lemma pr_covered : covered pr_fs.
Proof.
  intros f u s Hf Hu Hs. rewrite (pr_arity f Hf) in Hu. assert (Hf2 : f < 2) by exact Hf.
  destruct f as [|[|]]; try lia; (destruct u as [|[|]]; try lia; (assert (Hs2 : s < 2) by exact Hs; destruct s as [|[|]]; try lia; vm_compute; discriminate)).
Qed.
Lemma pr_var_to_fac f u s : var_to_fac pr_fs pr_ev pr_m f u s = 0%R.
Proof. unfold var_to_fac, pr_ev, pr_m. rewrite rsum_const. lra. Qed.
Lemma pr_score f c u : f < length pr_fs -> score_but pr_fs pr_pots (var_to_fac pr_fs pr_ev pr_m) f c u = pr_pots f c.
Proof.
  intros Hf. unfold score_but. rewrite (rsum_ext _ (fun _ => 0%R)) by (intros; apply pr_var_to_fac). rewrite rsum_const. lra.
Qed.
Lemma pr_new f u s : f < length pr_fs -> u < 2 -> s < 2 -> fac_to_var pr_fs pr_pots 1 (var_to_fac pr_fs pr_ev pr_m) f u s = ln 4.
Proof.
  intros Hf Hu Hs. unfold fac_to_var. destruct (Req_EM_T 1 0) as [E|_]; [lra|]. unfold fac_to_var_soft.
  rewrite (rsum_ext _ (fun c => exp (pr_pots f c / 1))) by (intros c _; now rewrite pr_score).
  assert (Hf2 : f < 2) by exact Hf.
  assert (E : rsum (map (fun c => exp (pr_pots f c / 1)) (choices pr_fs f u s)) = 4%R); [|rewrite E; lra].
  destruct u as [|[|]]; try lia; (destruct s as [|[|]]; try lia; (destruct f as [|[|]]; try lia;
    (match goal with |- context [choices ?a ?b ?c ?d] => let l := eval vm_compute in (choices a b c d) in change (choices a b c d) with l end;
     unfold rsum; cbn [map fold_right pr_pots]; rewrite pr_exp3, pr_exp0; lra))).
Qed.
(** Messages 0 are a fixed point. *)
Lemma pr_fixed : msg_eq pr_fs (text_step pr_fs pr_pots 1 0 pr_ev pr_m) pr_m.
Proof.
  intros f u s Hf Hu Hs. rewrite (pr_arity f Hf) in Hu. assert (E2 : snd (var_at pr_fs f u) = 2).
  { assert (Hf2 : f < 2) by exact Hf. destruct f as [|[|]]; try lia; (destruct u as [|[|]]; [reflexivity|reflexivity|lia]). }
  rewrite E2 in Hs. unfold text_step, normal. rewrite E2. cbn [seq map]. unfold damp. rewrite !pr_new by (auto; lia). unfold rmaxs, rmax. cbn [fold_left fold_right].
  unfold pr_m. set (z := ln 4). repeat (unfold Rmax; destruct (Rle_dec _ _)); lra.
Qed.
(** The assignments have total weight 20, but the free energy is that of weight 16. *)
Lemma pr_partition : partition_sum pr_fs pr_pots 1 pr_ev [pr_x; pr_y] = 20%R.
Proof.
  unfold partition_sum, state_weight, agree, pr_ev. unfold pr_x, pr_y. cbn -[exp ln Rdiv]. change (Pos.to_nat 1) with 1. cbn -[exp ln Rdiv].
  replace (exp ((0 + (0 + 0)) / 1)) with 1%R by (replace ((0 + (0 + 0)) / 1)%R with 0%R by field; now rewrite exp_0).
  rewrite pr_exp3, pr_exp0. lra.
Qed.
Lemma pr_belief x s : text_belief pr_fs pr_ev pr_m x s = 0%R.
Proof. unfold text_belief, pr_ev, pr_m. rewrite rsum_const. lra. Qed.
Lemma pr_bethe : bethe pr_fs pr_pots 1 (text_belief pr_fs pr_ev pr_m) pr_m [pr_x; pr_y] = ln 16.
Proof.
  set (b := text_belief pr_fs pr_ev pr_m).
  assert (S : forall x, snd x = 2 -> state_sum 1 b x = 2%R).
  { intros x E. unfold state_sum. rewrite E. cbn [seq map]. unfold b. rewrite !pr_belief, pr_exp0. unfold rsum. cbn [fold_right]. lra. }
  assert (C : forall f, f < 2 -> config_sum pr_fs pr_pots 1 b pr_m f = 8%R).
  { intros f Hf. unfold config_sum. rewrite (rsum_ext _ (fun c => exp (pr_pots f c / 1))).
    - assert (E4 : length (sf_configs (factor_at pr_fs f)) = 4) by (destruct f as [|[|]]; [reflexivity|reflexivity|lia]). rewrite E4. cbn [seq map]. unfold rsum.
      cbn [fold_right pr_pots]. rewrite pr_exp3, pr_exp0. lra.
    - intros c _. f_equal. f_equal. unfold config_belief. rewrite (rsum_ext _ (fun _ => 0%R)); [rewrite rsum_const; lra|]. intros u _. unfold b, pr_m. rewrite pr_belief. lra. }
  unfold bethe. change (length pr_fs) with 2. cbn [seq map]. rewrite !C by lia. rewrite !pr_arity by (cbn; lia). cbn [seq map]. rewrite !S by reflexivity.
  unfold rsum. cbn [fold_right].
  assert (E8 : ln 8 = (3 * ln 2)%R) by (replace 8%R with (2 * (2 * 2))%R by lra; rewrite !ln_mult by lra; lra).
  assert (E16 : ln 16 = (4 * ln 2)%R) by (replace 16%R with (2 * (2 * (2 * 2)))%R by lra; rewrite !ln_mult by lra; lra).
  rewrite E8, E16. lra.
Qed.
Lemma pr_refuted : ~ (forall (fs : list (sfactor R)) pots T ev xs m,
  T <> 0%R -> configs_ok fs -> covered fs -> (forall f, f < length fs -> 0 < arity fs f) ->
  NoDup xs -> incl (sf_edges fs) xs -> (forall x, In x xs -> 0 < snd x) ->
  msg_eq fs (text_step fs pots T 0 ev m) m ->
  (T * ln (partition_sum fs pots T ev xs) = bethe fs pots T (text_belief fs ev m) m xs)%R).
Proof.
  intros H. specialize (H pr_fs pr_pots 1%R pr_ev [pr_x; pr_y] pr_m R1_neq_R0 pr_configs pr_covered).
  assert (E : (1 * ln (partition_sum pr_fs pr_pots 1 pr_ev [pr_x; pr_y]) = bethe pr_fs pr_pots 1 (text_belief pr_fs pr_ev pr_m) pr_m [pr_x; pr_y])%R).
  { apply H; [| | | |exact pr_fixed].
    - intros f Hf. rewrite (pr_arity f Hf). lia.
    - repeat constructor; [intros [E|[]]; discriminate|intros []].
    - intros x Hx. vm_compute in Hx. cbn. intuition congruence.
    - intros x [<-|[<-|[]]]; cbn; lia. }
  rewrite pr_partition, pr_bethe in E. pose proof (ln_increasing 16 20 ltac:(lra) ltac:(lra)). lra.
Qed.
