(** * Bounds on the clique of [ExFix], at its two fixed points. *)
From Verif Require Import NumPy FGroup FGraph BPState BP Lists SpecVGroup SpecFactor SpecFGraph SpecAdd SpecWiring SpecState SpecBP SpecText SpecBeliefs SpecTree SpecFix SpecBound.
From Verif Require Import LemNum LemTransfer LemConv LemFix ExBP ExCycle ExFix.
From Coq Require Import Lia QArith Qreals Reals Lra.
Local Close Scope Q_scope.
Local Close Scope R_scope.
Local Open Scope nat_scope.

(** The other fixed point: all messages prefer state 0. *)
Definition kq_good_z : list Z := [0; -2; 0; -2; 0; -2; 0; -2; 0; -2; 0; -2; 0; -2; 0; -2; 0; -2; 0; -2; 0; -2; 0; -2]%Z.
Definition kq_h : bp_arrays R := kq_arrays IZR (map IZR kq_good_z) (map IZR kq_ev_z).
Lemma kq_h_arrays T : arrays_of (kq_c T) kq_h. Proof. now apply kq_arrays_of. Qed.
Lemma kq_h_fix : ba_ftov_msgs (run_bp (kq_c 0) kq_h 1 0%R) = ba_ftov_msgs kq_h.
Proof.
  set (aq := kq_arrays inject_Z (map inject_Z kq_good_z) (map inject_Z kq_ev_z)).
  assert (E : run_bp (kq_ctx inject_Z 0%Q) aq 1 0%Q = aq) by (vm_compute; reflexivity).
  assert (Ea : kq_h = map_arrays Q2R aq) by (unfold aq, kq_h, kq_arrays, map_arrays; cbn [ba_log_potentials ba_ftov_msgs ba_evidence]; now rewrite !Q2R_map).
  assert (S : same_ctx (kq_ctx inject_Z 0%Q) (kq_c 0)) by (repeat split).
  pose proof (run_Q _ _ aq 1 0%Q S) as H. rewrite E, RMicromega.Q2R_0 in H. rewrite Ea, <- H. reflexivity.
Qed.
Lemma kq_h_beliefs r b : get_beliefs (kq_c 0) kq_h = Ok r -> belief_table kq_vgs r b -> forall x, In x (all_vars kq_vgs) -> b x 0 = 1%R /\ b x 1 = (-6)%R.
Proof.
  intros Er Tr. destruct (kq_given 0) as [H1 [H2 [H3 [H4 _]]]].
  destruct (LemBeliefs.C33_lemma kq_vgs kq_g 0%R (kq_c 0) H1 H2 H3 H4 kq_h (kq_h_arrays 0) kq_pos) as [r' [Er' [_ D]]]. rewrite Er in Er'. injection Er' as <-.
  destruct (D (VA kq_vg) (or_introl eq_refl)) as [y [Ey [_ Ry]]]. intros x Hx. rewrite kq_vars in Hx.
  assert (Hi : exists i, nth_error (vg_variables (VA kq_vg)) i = Some x /\ snd x = 2) by (destruct Hx as [<-|[<-|[<-|[<-|[]]]]]; [exists 0|exists 1|exists 2|exists 3]; split; reflexivity).
  destruct Hi as [i [Hi E2]]. destruct (Tr (VA kq_vg) (or_introl eq_refl)) as [y' [Ey' Ty]]. rewrite Ey in Ey'. injection Ey' as <-.
  pose proof (Ty i x 0 Hi ltac:(lia)) as T0. pose proof (Ty i x 1 Hi ltac:(lia)) as T1.
  rewrite (Ry i x Hi), E2 in T0, T1. cbn [seq map app nth_error] in T0, T1. injection T0 as T0. injection T1 as T1. rewrite <- T0, <- T1.
  destruct Hx as [<-|[<-|[<-|[<-|[]]]]]; split; cbv -[IZR Rplus]; lra.
Qed.
Lemma kq_h_states r q st : get_beliefs (kq_c 0) kq_h = Ok r -> decode_map_states r = Ok q -> state_table kq_vgs q st -> forall x, In x (all_vars kq_vgs) -> st x = 0.
Proof.
  intros Er Eq Tq. destruct (kq_given 0) as [H1 [H2 [H3 [H4 _]]]].
  destruct (LemBeliefs.C34_lemma kq_vgs kq_g 0%R (kq_c 0) H1 H2 H3 H4 kq_h (kq_h_arrays 0) kq_pos kq_not_one) as [r' [q' [Er' [Eq' [_ D]]]]]. rewrite Er in Er'. injection Er' as <-. rewrite Eq in Eq'. injection Eq' as <-.
  destruct (D (VA kq_vg) (or_introl eq_refl)) as [y [Ey [_ Ry]]]. intros x Hx. rewrite kq_vars in Hx.
  assert (Hi : exists i, nth_error (vg_variables (VA kq_vg)) i = Some x /\ snd x = 2) by (destruct Hx as [<-|[<-|[<-|[<-|[]]]]]; [exists 0|exists 1|exists 2|exists 3]; split; reflexivity).
  destruct Hi as [i [Hi E2]]. destruct (Tq (VA kq_vg) (or_introl eq_refl)) as [y' [Ey' Ty]]. rewrite Ey in Ey'. injection Ey' as <-. pose proof (Ty i x Hi) as T0. destruct (Ry i x Hi) as [s [Es [F1 [F2 _]]]]. rewrite T0 in Es. injection Es as <-.
  rewrite E2 in F1, F2. specialize (F2 0 ltac:(lia)). destruct (st x) as [|[|]] eqn:Est; [reflexivity|exfalso|lia].
  revert F2. destruct Hx as [<-|[<-|[<-|[<-|[]]]]]; cbv -[IZR Rplus Rle]; lra.
Qed.

(** Residuals when all variables have the same beliefs and all messages are the same. *)
Lemma kq_residual a b m0 m1 b0 b1 w : ba_log_potentials a = map IZR kq_pots_z ->
  (forall x, In x (all_vars kq_vgs) -> b x 0 = b0 /\ b x 1 = b1) ->
  (forall f u, f < 6 -> u < 2 -> read_msgs kq_rfs (ba_ftov_msgs a) f u 0 = m0 /\ read_msgs kq_rfs (ba_ftov_msgs a) f u 1 = m1) ->
  forall f, f < 6 ->
  let R0 := residual kq_rfs (graph_pots (gr_groups kq_g) (ba_log_potentials a)) b (read_msgs kq_rfs (ba_ftov_msgs a)) (fun _ _ => w) f in
  R0 0 = (2 + 2 * (w * b0 - m0))%R /\ R0 1 = (w * b0 - m0 + (w * b1 - m1))%R /\ R0 2 = (w * b0 - m0 + (w * b1 - m1))%R /\ R0 3 = (2 + 2 * (w * b1 - m1))%R.
Proof.
  intros Ep Hb Hm f Hf R0.
  assert (Hv : forall u, u < 2 -> In (var_at kq_rfs f u) (all_vars kq_vgs)).
  { intros u Hu. rewrite kq_vars. do 6 (destruct f as [|f]; [destruct u as [|[|]]; [vm_compute; tauto|vm_compute; tauto|lia]|]). lia. }
  destruct (Hb _ (Hv 0 ltac:(lia))) as [P0 P1]. destruct (Hb _ (Hv 1 ltac:(lia))) as [Q0 Q1].
  destruct (Hm f 0 Hf ltac:(lia)) as [M0 M1]. destruct (Hm f 1 Hf ltac:(lia)) as [N0 N1].
  assert (Es : forall k u, k < 4 -> u < 2 -> config_at_slot kq_rfs f k u = if u =? 0 then k / 2 else k mod 2).
  { intros k u Hk Hu. do 6 (destruct f as [|f]; [do 4 (destruct k as [|k]; [destruct u as [|[|]]; [reflexivity|reflexivity|lia]|]); lia|]). lia. }
  assert (Et : forall k, k < 4 -> graph_pots (gr_groups kq_g) (ba_log_potentials a) f k = if (k =? 0) || (k =? 3) then 2%R else 0%R).
  { intros k Hk. rewrite Ep. do 6 (destruct f as [|f]; [do 4 (destruct k as [|k]; [reflexivity|]); lia|]). lia. }
  unfold R0, residual, config_belief. rewrite (kq_arity f Hf). cbn [seq map]. unfold rsum. cbn [fold_right].
  repeat split; rewrite !Es, Et by lia; cbn [Nat.eqb orb Nat.div Nat.modulo Nat.divmod fst snd Nat.sub]; rewrite ?P0, ?P1, ?Q0, ?Q1, ?M0, ?M1, ?N0, ?N1; lra.
Qed.
Lemma kq_share w x : In x (all_vars kq_vgs) -> share_left kq_rfs (fun _ _ => w) x = (1 - 3 * w)%R.
Proof.
  intros Hx. rewrite kq_vars in Hx. unfold share_left.
  destruct Hx as [<-|[<-|[<-|[<-|[]]]]].
  - change (slots_of kq_rfs b0) with [(0,0); (1,0); (2,0)]. unfold rsum. cbn [map fold_right]. lra.
  - change (slots_of kq_rfs b1) with [(0,1); (3,0); (4,0)]. unfold rsum. cbn [map fold_right]. lra.
  - change (slots_of kq_rfs b2) with [(1,1); (3,1); (5,0)]. unfold rsum. cbn [map fold_right]. lra.
  - change (slots_of kq_rfs b3) with [(2,1); (4,1); (5,1)]. unfold rsum. cbn [map fold_right]. lra.
Qed.
Lemma kq_a_msgs f u : f < 6 -> u < 2 -> read_msgs kq_rfs (ba_ftov_msgs kq_a) f u 0 = (-2)%R /\ read_msgs kq_rfs (ba_ftov_msgs kq_a) f u 1 = 0%R.
Proof. intros Hf Hu. do 6 (destruct f as [|f]; [destruct u as [|[|]]; [split; reflexivity|split; reflexivity|lia]|]). lia. Qed.
Lemma kq_h_msgs f u : f < 6 -> u < 2 -> read_msgs kq_rfs (ba_ftov_msgs kq_h) f u 0 = 0%R /\ read_msgs kq_rfs (ba_ftov_msgs kq_h) f u 1 = (-2)%R.
Proof. intros Hf Hu. do 6 (destruct f as [|f]; [destruct u as [|[|]]; [split; reflexivity|split; reflexivity|lia]|]). lia. Qed.
Lemma kq_nconfigs f : f < 6 -> length (sf_configs (factor_at kq_rfs f)) = 4.
Proof. intros Hf. do 6 (destruct f as [|f]; [reflexivity|]). lia. Qed.
