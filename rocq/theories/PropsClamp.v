(** * Property C62: evidence that holds variables in a state. *)
From Verif Require Import NumPy Lists VGroup FGraph BPState BP SpecVGroup SpecFGraph SpecFactor SpecAdd SpecWiring SpecState SpecBP SpecText SpecBeliefs SpecClamp.
From Verif Require Import LemFGraph LemRun LemBeliefs LemText LemSep LemClamp ExBP PropsMsgs PropsRun PropsBeliefs PropsStable.
From Coq Require Import Reals Lra Lia QArith.
Local Close Scope Q_scope.
Local Close Scope R_scope.
Local Open Scope nat_scope.

(** ** C62 *)
(** Evidence that prefers a state by more than 1000 for every factor on the variable decides the
    decoded state, at every temperature, damping and number of iterations. What exceeds this
    bounds the marginal probabilities of the other states. *)
Theorem C62_held :
  forall vgs (g : fgraph R) T (c : bp_ctx R),
  groups_ok vgs -> reachable vgs g -> wf_groups (gr_groups g) -> bp_of g T c ->
  forall a, arrays_of c a ->
  let fs := graph_factors 0%R (gr_groups g) in
  let pots := graph_pots (gr_groups g) (ba_log_potentials a) in
  let ne := length (enum_factors (gr_groups g)) in
  let lens := map snd (sf_edges fs) in
  let ev := read_ev (gr_vars_to_starts g) (ba_evidence a) in
  forall d B P D K, (0 <= T)%R -> (0 <= d <= 1)%R ->
  moderate fs pots ne ev B P D K -> supported lens -> above_floor lens (ba_ftov_msgs a) ->
  (forall gr k, In gr vgs -> In k (vg_num_states gr) -> 0 < k) -> (forall gr, In gr vgs -> one_state gr = false) ->
  forall n, exists b q r, get_beliefs c (run_bp c a n d) = Ok b /\ decode_map_states b = Ok q /\ get_marginals b = Ok r /\
  forall gr, In gr vgs -> exists y z, dget vg_eqb gr q = Some y /\ dget vg_eqb gr r = Some z /\
  forall i x s gap, nth_error (vg_variables gr) i = Some x -> s < snd x -> (0 < gap)%R ->
  (forall t, t < snd x -> t <> s -> (ev x t + 1000 * INR (length (slots_of fs x)) + gap <= ev x s)%R) ->
  cell gr y i = [s] /\
  forall t, t < snd x -> t <> s -> exists p, nth_error (row gr z i) t = Some p /\ (0 < p <= exp (- gap))%R.
Proof. exact C62_held_lemma. Qed.
Print Assumptions C62_held.

(** At temperature 0, a set of variables cut off from the rest of the graph by variables held in
    a state receives messages that depend only on the potentials that agree with the held states,
    the evidence of the set and its initial messages. Everything else may differ: other
    potentials, the evidence and messages of all other variables. *)
Theorem C62_messages :
  forall vgs (g : fgraph R) (c : bp_ctx R),
  groups_ok vgs -> reachable vgs g -> wf_groups (gr_groups g) -> bp_of g 0%R c ->
  forall a a', arrays_of c a -> arrays_of c a' ->
  let fs := graph_factors 0%R (gr_groups g) in
  let pots b := graph_pots (gr_groups g) (ba_log_potentials b) in
  let ne := length (enum_factors (gr_groups g)) in
  let lens := map snd (sf_edges fs) in
  let ev b := read_ev (gr_vars_to_starts g) (ba_evidence b) in
  let msgs b := read_msgs fs (ba_ftov_msgs b) in
  forall d B P B' P' D K D' K', (0 <= d <= 1)%R ->
  moderate fs (pots a) ne (ev a) B P D K -> moderate fs (pots a') ne (ev a') B' P' D' K' ->
  supported lens -> above_floor lens (ba_ftov_msgs a) -> above_floor lens (ba_ftov_msgs a') ->
  forall cl side G Bs W G' Bs' W' Ds Ks Ds' Ks', cut_off fs cl side -> possible fs cl side ->
  held fs cl side (pots a) (ev a) G Bs W Ds Ks -> held fs cl side (pots a') (ev a') G' Bs' W' Ds' Ks' ->
  (forall f k, f < length fs -> touches fs side f -> k < length (sf_configs (factor_at fs f)) -> obeys fs cl f k -> pots a' f k = pots a f k) ->
  (forall x s, side x = true -> In x (all_vars vgs) -> s < snd x -> ev a' x s = ev a x s) ->
  (forall f u s, f < length fs -> u < arity fs f -> side (var_at fs f u) = true -> s < snd (var_at fs f u) -> msgs a' f u s = msgs a f u s) ->
  forall n f u s, f < length fs -> u < arity fs f -> side (var_at fs f u) = true -> s < snd (var_at fs f u) ->
  msgs (run_bp c a' n d) f u s = msgs (run_bp c a n d) f u s.
Proof. exact C62_messages_lemma. Qed.
Print Assumptions C62_messages.

(** ... and so do its beliefs and decoded states. *)
Theorem C62_beliefs :
  forall vgs (g : fgraph R) (c : bp_ctx R),
  groups_ok vgs -> reachable vgs g -> wf_groups (gr_groups g) -> bp_of g 0%R c ->
  forall a a', arrays_of c a -> arrays_of c a' ->
  let fs := graph_factors 0%R (gr_groups g) in
  let pots b := graph_pots (gr_groups g) (ba_log_potentials b) in
  let ne := length (enum_factors (gr_groups g)) in
  let lens := map snd (sf_edges fs) in
  let ev b := read_ev (gr_vars_to_starts g) (ba_evidence b) in
  let msgs b := read_msgs fs (ba_ftov_msgs b) in
  forall d B P B' P' D K D' K', (0 <= d <= 1)%R ->
  moderate fs (pots a) ne (ev a) B P D K -> moderate fs (pots a') ne (ev a') B' P' D' K' ->
  supported lens -> above_floor lens (ba_ftov_msgs a) -> above_floor lens (ba_ftov_msgs a') ->
  forall cl side G Bs W G' Bs' W' Ds Ks Ds' Ks', cut_off fs cl side -> possible fs cl side ->
  held fs cl side (pots a) (ev a) G Bs W Ds Ks -> held fs cl side (pots a') (ev a') G' Bs' W' Ds' Ks' ->
  (forall f k, f < length fs -> touches fs side f -> k < length (sf_configs (factor_at fs f)) -> obeys fs cl f k -> pots a' f k = pots a f k) ->
  (forall x s, side x = true -> In x (all_vars vgs) -> s < snd x -> ev a' x s = ev a x s) ->
  (forall f u s, f < length fs -> u < arity fs f -> side (var_at fs f u) = true -> s < snd (var_at fs f u) -> msgs a' f u s = msgs a f u s) ->
  (forall gr k, In gr vgs -> In k (vg_num_states gr) -> 0 < k) -> (forall gr, In gr vgs -> one_state gr = false) ->
  forall n, exists b q b' q', get_beliefs c (run_bp c a n d) = Ok b /\ decode_map_states b = Ok q /\
    get_beliefs c (run_bp c a' n d) = Ok b' /\ decode_map_states b' = Ok q' /\
  forall gr, In gr vgs -> exists e y e' y',
    dget vg_eqb gr b = Some e /\ dget vg_eqb gr q = Some y /\ dget vg_eqb gr b' = Some e' /\ dget vg_eqb gr q' = Some y' /\
  forall i x, nth_error (vg_variables gr) i = Some x -> side x = true -> row gr e' i = row gr e i /\ cell gr y' i = cell gr y i.
Proof. exact C62_beliefs_lemma. Qed.
Print Assumptions C62_beliefs.

(** ** Examples *)
(** A factor on b0 and b1, their disjunction b2, and a factor on b2 and b3. *)
Section Held.
  Context {A : Type} (p : Z -> A).
  Definition ex11_enum : fgroup A :=
    {| fg_id := 1; fg_kind := KEnum; fg_type := TEnum; fg_vars := [[b0; b1]; [b2; b3]];
       fg_configs := mkArr [4; 2] [0; 0; 0; 1; 1; 0; 1; 1]%Z; fg_log_potentials := map p [1; -2; 3; 0; 4; -1; 2; 2]%Z |}.
  Definition ex11_or : fgroup A :=
    {| fg_id := 2; fg_kind := KLogical; fg_type := TOr; fg_vars := [[b0; b1; b2]];
       fg_configs := mkArr [] []; fg_log_potentials := [] |}.
  Definition ex11_graph : fgraph A :=
    fst (add_factors (AList [AGroup ex11_enum; AGroup ex11_or]) (FactorGraph (GsList ex_vgs))).
  Lemma ex11_reach : reachable ex_vgs ex11_graph.
  Proof. apply reach_add, reach_new. reflexivity. Qed.
  Lemma ex11_groups : gr_groups ex11_graph = PT [ex11_enum] [ex11_or] [].
  Proof. reflexivity. Qed.
  Lemma ex11_wf : wf_groups (gr_groups ex11_graph).
  Proof.
    intros t g Hg. rewrite ex11_groups in Hg.
    destruct t; cbn in Hg; [destruct Hg as [<-|[]]|destruct Hg as [<-|[]]|destruct Hg].
    - split; [reflexivity|]. split; [|discriminate]. exists 4. split; [reflexivity|].
      intros vs Hvs. split; [destruct Hvs as [<-|[<-|[]]]; reflexivity|].
      intros r u x Hr Hu.
      assert (Hu2 : u < 2) by (assert (E : length vs = 2) by (destruct Hvs as [<-|[<-|[]]]; reflexivity); rewrite <- E; apply nth_error_Some; congruence).
      destruct Hvs as [<-|[<-|[]]]; destruct r as [|[|[|[|]]]]; try lia; destruct u as [|[|]]; try lia; injection Hu as <-; vm_compute; split; congruence.
    - split; [reflexivity|]. split; [|discriminate]. intros vs [<-|[]]. split; [simpl; lia|]. intros x [<-|[<-|[<-|[]]]]; reflexivity.
  Qed.
End Held.
Definition ex11_st : fg_state R :=
  ltac:(let r := eval vm_compute in (compile_fg_state (fun _ => 0%Z) (ex11_graph IZR)) in
        match r with Ok ?s => exact s end).
Notation ex11_g := (ex11_graph IZR).
Notation ex11_fs := (graph_factors 0%R (gr_groups ex11_g)).
Definition ex11_bs : bp_state R :=
  {| bs_log_potentials := {| c_state := (9, ex11_st); c_value := st_log_potentials ex11_st |};
     bs_ftov_msgs := {| c_state := (9, ex11_st); c_value := repeat 0%R 14 |};
     bs_evidence := {| c_state := (9, ex11_st); c_value := repeat 0%R 11 |} |}.
(** Evidence 9000 and more for state 1 of b2; different potentials, evidence and messages beyond. *)
Definition ex11_a : bp_arrays R :=
  {| ba_log_potentials := map IZR [1; -2; 3; 0; 4; -1; 2; 2]%Z;
     ba_ftov_msgs := map IZR [0; -1; 0; -2; -3; 0; 0; -5; 0; 0; -1; 0; 0; -4]%Z;
     ba_evidence := map IZR [0; 1; 2; -1; 0; 9000; 3; 0; 1; 2; 3]%Z |}.
Definition ex11_a' : bp_arrays R :=
  {| ba_log_potentials := map IZR [1; -2; 3; 0; -7; 5; 0; 30]%Z;
     ba_ftov_msgs := map IZR [0; -1; 0; -2; 0; -9; -1; 0; 0; 0; -1; 0; -20; 0]%Z;
     ba_evidence := map IZR [0; 1; 2; -1; -500; 8800; -40; 6; 0; 0; 0]%Z |}.
Lemma ex11_bp T : exists c, bp_of ex11_g T c /\ arrays_of c ex11_a /\ arrays_of c ex11_a'.
Proof.
  destruct (BP ex11_bs T) as [c|e] eqn:E; [|discriminate]. exists c. split; [exists (fun _ => 0%Z), ex11_bs; split; [vm_compute; reflexivity|exact E]|].
  injection E as <-. repeat split.
Qed.
Lemma ex11_moderate a : a = ex11_a \/ a = ex11_a' -> moderate ex11_fs (graph_pots (gr_groups ex11_g) (ba_log_potentials a)) (length (enum_factors (gr_groups ex11_g)))
  (read_ev (gr_vars_to_starts ex11_g) (ba_evidence a)) 9000 10 10 2.
Proof.
  intros Ha. split; [|split; [|split; [|split; [|split; [|split; cbn [INR]; lra]]]]].
  - intros x s _ _. unfold read_ev. generalize (start_of (gr_vars_to_starts ex11_g) x + s). intros i. destruct Ha as [-> | ->]; (do 11 (destruct i as [|i]; [cbn; lra|]); destruct i; cbn; lra).
  - intros f k _ _. unfold graph_pots, read_pots. destruct (f <? _); [|lra].
    match goal with |- (_ <= nth ?i _ _)%R => generalize i end. intros i. destruct Ha as [-> | ->]; (do 8 (destruct i as [|i]; [cbn; lra|]); destruct i; cbn; lra).
  - intros x. unfold slots_of. eapply Nat.le_trans; [apply filter_length_le|]. vm_compute. lia.
  - intros f Hf. assert (Hf2 : f < 2) by exact Hf. destruct f as [|[|]]; [| |lia]; vm_compute; lia.
  - intros f u s Hf Hu Hs. assert (Hf2 : f < 2) by exact Hf. destruct f as [|[|]]; [| |lia]; (destruct u as [|[|[|u]]]; try (exfalso; vm_compute in Hu; lia));
      (destruct s as [|[|[|s]]]; try (exfalso; vm_compute in Hs; lia)); vm_compute; discriminate.
Qed.
Lemma ex11_supported : supported (map snd (sf_edges ex11_fs)).
Proof. split; [vm_compute; discriminate|]. intros n Hn. vm_compute in Hn. repeat (destruct Hn as [<-|Hn]; [lia|]). destruct Hn. Qed.
Lemma ex11_above a : a = ex11_a \/ a = ex11_a' -> above_floor (map snd (sf_edges ex11_fs)) (ba_ftov_msgs a).
Proof.
  intros Ha e He. right. assert (e < 7) by exact He. unfold neg_inf.
  destruct Ha as [-> | ->]; (do 7 (destruct e as [|e]; [eapply Rle_trans; [|apply LemNum.rmaxs_ub; left; reflexivity]; cbn; lra|])); lia.
Qed.
Definition ex11_cl (x : variable) : option nat := if var_eqb x b2 then Some 1 else None.
Definition ex11_side (x : variable) : bool := var_eqb x b0 || var_eqb x b1.
Lemma ex11_touches f : f < 3 -> touches ex11_fs ex11_side f -> f = 0 \/ f = 2.
Proof. intros Hf [u [Hu Hs]]. destruct f as [|[|[|f]]]; [now left| |now right|lia]. destruct u as [|[|u]]; [discriminate|discriminate|vm_compute in Hu; lia]. Qed.
Lemma ex11_cut : cut_off ex11_fs ex11_cl ex11_side.
Proof.
  split.
  - intros x Hx. unfold ex11_cl. destruct (var_eqb x b2) eqn:E; [|reflexivity]. apply var_eqb_eq in E. subst x. discriminate.
  - intros f u Hf Ht Hu. assert (Hf3 : f < 3) by exact Hf. destruct (ex11_touches f Hf3 Ht) as [-> | ->];
      (destruct u as [|[|[|u]]]; [left; reflexivity|left; reflexivity|..]); try (exfalso; vm_compute in Hu; lia). right. discriminate.
Qed.
Lemma ex11_possible : possible ex11_fs ex11_cl ex11_side.
Proof.
  intros f u t Hf Hu Hs Ht. assert (Hf3 : f < 3) by exact Hf.
  assert (O : forall k, (forall v, v < 3 -> v < arity ex11_fs f -> match ex11_cl (var_at ex11_fs f v) with Some s => config_at_slot ex11_fs f k v = s | None => True end) -> obeys ex11_fs ex11_cl f k).
  { intros k H v s Hv E. assert (Hv3 : v < 3) by (destruct f as [|[|[|f]]]; [| | |lia]; vm_compute in Hv; lia). specialize (H v Hv3 Hv). now rewrite E in H. }
  destruct f as [|[|[|f]]]; [| | |lia].
  - destruct u as [|[|u]]; [| |vm_compute in Hu; lia]; (destruct t as [|[|t]]; [| |vm_compute in Ht; lia]); eexists; (split; [left; reflexivity|]); apply O; intros v Hv Hv2;
      (destruct v as [|[|v]]; [exact I|exact I|vm_compute in Hv2; lia]).
  - destruct u as [|[|u]]; [discriminate|discriminate|vm_compute in Hu; lia].
  - destruct u as [|[|[|u]]]; [| |discriminate|vm_compute in Hu; lia]; (destruct t as [|[|t]]; [| |vm_compute in Ht; lia]);
      [exists 2|exists 1|exists 1|exists 2]; (split; [vm_compute; auto|]); apply O; intros v Hv Hv2; (destruct v as [|[|[|v]]]; [exact I|exact I|reflexivity|lia]).
Qed.
Lemma ex11_slots x : length (slots_of ex11_fs x) <= 2.
Proof.
  destruct (var_eqb x b0) eqn:E0; [apply var_eqb_eq in E0; subst x; vm_compute; lia|]. destruct (var_eqb x b1) eqn:E1; [apply var_eqb_eq in E1; subst x; vm_compute; lia|].
  destruct (var_eqb x b2) eqn:E2; [apply var_eqb_eq in E2; subst x; vm_compute; lia|]. destruct (var_eqb x b3) eqn:E3; [apply var_eqb_eq in E3; subst x; vm_compute; lia|].
  assert (E : slots_of ex11_fs x = []); [|rewrite E; cbn; lia]. destruct (slots_of ex11_fs x) as [|[f u] l] eqn:E; [reflexivity|]. exfalso.
  assert (Hi : In (f, u) (slots_of ex11_fs x)) by (rewrite E; now left). apply LemText.In_slots_of in Hi. destruct Hi as [Hf [Hu <-]]. assert (Hf3 : f < 3) by exact Hf.
  destruct f as [|[|[|f]]]; [| | |lia]; (destruct u as [|[|[|u]]]; try (vm_compute in Hu; lia)); vm_compute in E0, E1, E2, E3; congruence.
Qed.
Lemma ex11_held a : a = ex11_a \/ a = ex11_a' -> held ex11_fs ex11_cl ex11_side (graph_pots (gr_groups ex11_g) (ba_log_potentials a)) (read_ev (gr_vars_to_starts ex11_g) (ba_evidence a)) 9000 3 10 2 3.
Proof.
  intros Ha. split; [|split; [|split; [|split; [exact ex11_slots|split; [|split; [lra|cbn [INR]; lra]]]]]].
  - intros x s Hx _. unfold ex11_cl in Hx. destruct (var_eqb x b2) eqn:E; [|discriminate]. apply var_eqb_eq in E. subst x. injection Hx as <-. split; [cbn; lia|].
    intros t Ht Hne. destruct t as [|[|t]]; [|congruence|cbn in Ht; lia]. destruct Ha as [-> | ->]; cbv -[IZR Rplus Rle]; lra.
  - intros x s Hx _ Hs. unfold ex11_side in Hx. apply orb_true_iff in Hx. destruct Hx as [Hx|Hx]; apply var_eqb_eq in Hx; subst x;
      (destruct s as [|[|s]]; [| |cbn in Hs; lia]); destruct Ha as [-> | ->]; cbv -[IZR Rplus Rle Ropp]; lra.
  - intros f k k' Hf Ht Hk Hk'. assert (Hf3 : f < 3) by exact Hf. destruct (ex11_touches f Hf3 Ht) as [-> | ->].
    + do 4 (destruct k as [|k]; [do 4 (destruct k' as [|k']; [destruct Ha as [-> | ->]; cbv -[IZR Rplus Rle Ropp Rminus]; lra|]); vm_compute in Hk'; lia|]); vm_compute in Hk; lia.
    + unfold graph_pots. change (2 <? length (enum_factors (gr_groups ex11_g))) with false. cbv iota. lra.
  - intros f Hf _. assert (Hf3 : f < 3) by exact Hf. destruct f as [|[|[|f]]]; [| | |lia]; vm_compute; lia.
Qed.
Lemma ex11_pots f k : f < length ex11_fs -> touches ex11_fs ex11_side f -> k < length (sf_configs (factor_at ex11_fs f)) -> obeys ex11_fs ex11_cl f k ->
  graph_pots (gr_groups ex11_g) (ba_log_potentials ex11_a') f k = graph_pots (gr_groups ex11_g) (ba_log_potentials ex11_a) f k.
Proof.
  intros Hf Ht Hk _. assert (Hf3 : f < 3) by exact Hf. destruct (ex11_touches f Hf3 Ht) as [-> | ->]; [|reflexivity].
  do 4 (destruct k as [|k]; [reflexivity|]). vm_compute in Hk. lia.
Qed.
Lemma ex11_ev x s : ex11_side x = true -> In x (all_vars ex_vgs) -> s < snd x ->
  read_ev (gr_vars_to_starts ex11_g) (ba_evidence ex11_a') x s = read_ev (gr_vars_to_starts ex11_g) (ba_evidence ex11_a) x s.
Proof.
  intros Hx _ Hs. unfold ex11_side in Hx. apply orb_true_iff in Hx. destruct Hx as [Hx|Hx]; apply var_eqb_eq in Hx; subst x; (destruct s as [|[|s]]; [| |cbn in Hs; lia]); reflexivity.
Qed.
Lemma ex11_msgs f u s : f < length ex11_fs -> u < arity ex11_fs f -> ex11_side (var_at ex11_fs f u) = true -> s < snd (var_at ex11_fs f u) ->
  read_msgs ex11_fs (ba_ftov_msgs ex11_a') f u s = read_msgs ex11_fs (ba_ftov_msgs ex11_a) f u s.
Proof.
  intros Hf Hu Hsd Hs. assert (Hf3 : f < 3) by exact Hf. destruct f as [|[|[|f]]]; [| | |lia]; (destruct u as [|[|[|u]]]; try (exfalso; vm_compute in Hu; lia)); try discriminate Hsd;
    (destruct s as [|[|s]]; [| |exfalso; vm_compute in Hs; lia]); reflexivity.
Qed.
Example C62_messages_nonvacuous : forall d n, (0 <= d <= 1)%R -> exists c, bp_of ex11_g 0%R c /\ arrays_of c ex11_a /\ arrays_of c ex11_a' /\
  forall s, s < 2 -> read_msgs ex11_fs (ba_ftov_msgs (run_bp c ex11_a' n d)) 2 0 s = read_msgs ex11_fs (ba_ftov_msgs (run_bp c ex11_a n d)) 2 0 s.
Proof.
  intros d n Hd. destruct (ex11_bp 0%R) as [c [H4 [H5 H6]]]. exists c. do 3 (split; [assumption|]). intros s Hs.
  assert (Hf : 2 < length ex11_fs) by (cbn; lia). assert (Hu : 0 < arity ex11_fs 2) by (cbn; lia).
  exact (C62_messages ex_vgs ex11_g c ex_vgs_ok (ex11_reach IZR) (ex11_wf IZR) H4 ex11_a ex11_a' H5 H6 d 9000%R 10%R 9000%R 10%R 10 2 10 2 Hd
    (ex11_moderate _ (or_introl eq_refl)) (ex11_moderate _ (or_intror eq_refl)) ex11_supported (ex11_above _ (or_introl eq_refl)) (ex11_above _ (or_intror eq_refl))
    ex11_cl ex11_side 9000%R 3%R 10%R 9000%R 3%R 10%R 2 3 2 3 ex11_cut ex11_possible (ex11_held _ (or_introl eq_refl)) (ex11_held _ (or_intror eq_refl))
    ex11_pots ex11_ev ex11_msgs n 2 0 s Hf Hu eq_refl Hs).
Qed.
Example C62_beliefs_nonvacuous : forall d n, (0 <= d <= 1)%R -> exists c b q b' q' y y', bp_of ex11_g 0%R c /\ arrays_of c ex11_a /\ arrays_of c ex11_a' /\
  get_beliefs c (run_bp c ex11_a n d) = Ok b /\ decode_map_states b = Ok q /\ get_beliefs c (run_bp c ex11_a' n d) = Ok b' /\ decode_map_states b' = Ok q' /\
  dget vg_eqb (VA ex_vg) q = Some y /\ dget vg_eqb (VA ex_vg) q' = Some y' /\
  cell (VA ex_vg) y' 0 = cell (VA ex_vg) y 0 /\ cell (VA ex_vg) y' 1 = cell (VA ex_vg) y 1.
Proof.
  intros d n Hd. destruct (ex11_bp 0%R) as [c [H4 [H5 H6]]].
  destruct (C62_beliefs ex_vgs ex11_g c ex_vgs_ok (ex11_reach IZR) (ex11_wf IZR) H4 ex11_a ex11_a' H5 H6 d 9000%R 10%R 9000%R 10%R 10 2 10 2 Hd
    (ex11_moderate _ (or_introl eq_refl)) (ex11_moderate _ (or_intror eq_refl)) ex11_supported (ex11_above _ (or_introl eq_refl)) (ex11_above _ (or_intror eq_refl))
    ex11_cl ex11_side 9000%R 3%R 10%R 9000%R 3%R 10%R 2 3 2 3 ex11_cut ex11_possible (ex11_held _ (or_introl eq_refl)) (ex11_held _ (or_intror eq_refl))
    ex11_pots ex11_ev ex11_msgs ex_pos ex_not_one n) as [b [q [b' [q' [E1 [E2 [E3 [E4 H]]]]]]]].
  destruct (H (VA ex_vg) (or_introl eq_refl)) as [e [y [e' [y' [F1 [F2 [F3 [F4 G]]]]]]]].
  exists c, b, q, b', q', y, y'. do 9 (split; [assumption|]). split; [exact (proj2 (G 0 b0 eq_refl eq_refl))|exact (proj2 (G 1 b1 eq_refl eq_refl))].
Qed.
(** The disjunction has two factors: its evidence leaves 7000. *)
Example C62_held_nonvacuous : forall T d n, (0 <= T)%R -> (0 <= d <= 1)%R -> exists c b q r y z p, bp_of ex11_g T c /\
  get_beliefs c (run_bp c ex11_a n d) = Ok b /\ decode_map_states b = Ok q /\ get_marginals b = Ok r /\
  dget vg_eqb (VA ex_vg) q = Some y /\ dget vg_eqb (VA ex_vg) r = Some z /\ cell (VA ex_vg) y 2 = [1] /\
  nth_error (row (VA ex_vg) z 2) 0 = Some p /\ (0 < p <= exp (- 7000))%R.
Proof.
  intros T d n HT Hd. destruct (ex11_bp T) as [c [H4 [H5 _]]].
  destruct (C62_held ex_vgs ex11_g T c ex_vgs_ok (ex11_reach IZR) (ex11_wf IZR) H4 ex11_a H5 d 9000%R 10%R 10 2 HT Hd
    (ex11_moderate _ (or_introl eq_refl)) ex11_supported (ex11_above _ (or_introl eq_refl)) ex_pos ex_not_one n) as [b [q [r [E1 [E2 [E3 H]]]]]].
  destruct (H (VA ex_vg) (or_introl eq_refl)) as [y [z [F1 [F2 G]]]].
  assert (Hg : forall t, t < snd b2 -> t <> 1 -> (read_ev (gr_vars_to_starts ex11_g) (ba_evidence ex11_a) b2 t + 1000 * INR (length (slots_of ex11_fs b2)) + 7000 <= read_ev (gr_vars_to_starts ex11_g) (ba_evidence ex11_a) b2 1)%R).
  { intros t Ht Hne. destruct t as [|[|t]]; [|congruence|cbn in Ht; lia]. change (length (slots_of ex11_fs b2)) with 2. cbv -[IZR Rplus Rle Rmult]. lra. }
  destruct (G 2 b2 1 7000%R eq_refl ltac:(cbn; lia) ltac:(lra) Hg) as [G1 G2]. destruct (G2 0 ltac:(cbn; lia) ltac:(lia)) as [p [P1 P2]].
  exists c, b, q, r, y, z, p. do 8 (split; [assumption|]). exact P2.
Qed.

(** ** The bound of 1000 *)
(** One factor on b0 with potentials 0 and 2000. *)
Section Alone.
  Context {A : Type} (p : Z -> A).
  Definition ex12_enum : fgroup A :=
    {| fg_id := 1; fg_kind := KEnum; fg_type := TEnum; fg_vars := [[b0]];
       fg_configs := mkArr [2; 1] [0; 1]%Z; fg_log_potentials := map p [0; 2000]%Z |}.
  Definition ex12_graph : fgraph A := fst (add_factors (AGroup ex12_enum) (FactorGraph (GsList ex_vgs))).
  Lemma ex12_reach : reachable ex_vgs ex12_graph.
  Proof. apply reach_add, reach_new. reflexivity. Qed.
  Lemma ex12_wf : wf_groups (gr_groups ex12_graph).
  Proof.
    intros t g Hg. change (gr_groups ex12_graph) with (PT [ex12_enum] [] []) in Hg.
    destruct t; cbn in Hg; [destruct Hg as [<-|[]]|destruct Hg|destruct Hg].
    split; [reflexivity|]. split; [|discriminate]. exists 2. split; [reflexivity|].
    intros vs Hvs. split; [destruct Hvs as [<-|[]]; reflexivity|]. intros r u x Hr Hu. destruct Hvs as [<-|[]].
    destruct u as [|u]; [|destruct u; discriminate]. injection Hu as <-. destruct r as [|[|]]; try lia; vm_compute; split; congruence.
  Qed.
End Alone.
Definition ex12_st : fg_state R :=
  ltac:(let r := eval vm_compute in (compile_fg_state (fun _ => 0%Z) (ex12_graph IZR)) in
        match r with Ok ?s => exact s end).
Notation ex12_g := (ex12_graph IZR).
Notation ex12_fs := (graph_factors 0%R (gr_groups ex12_g)).
Definition ex12_bs : bp_state R :=
  {| bs_log_potentials := {| c_state := (9, ex12_st); c_value := st_log_potentials ex12_st |};
     bs_ftov_msgs := {| c_state := (9, ex12_st); c_value := repeat 0%R 2 |};
     bs_evidence := {| c_state := (9, ex12_st); c_value := repeat 0%R 11 |} |}.
Definition ex12_a (k z : R) : bp_arrays R :=
  {| ba_log_potentials := [0; z]%R; ba_ftov_msgs := [0; 0]%R; ba_evidence := (k :: repeat 0%R 10) |}.
Lemma ex12_bp k z : exists c, bp_of ex12_g 0%R c /\ arrays_of c (ex12_a k z).
Proof.
  destruct (BP ex12_bs 0%R) as [c|e] eqn:E; [|discriminate]. exists c. split; [exists (fun _ => 0%Z), ex12_bs; split; [vm_compute; reflexivity|exact E]|].
  injection E as <-. repeat split.
Qed.
Lemma ex12_moderate k z : (0 <= k < 1000)%R -> (1000 <= z)%R -> moderate ex12_fs (graph_pots (gr_groups ex12_g) (ba_log_potentials (ex12_a k z))) (length (enum_factors (gr_groups ex12_g)))
  (read_ev (gr_vars_to_starts ex12_g) (ba_evidence (ex12_a k z))) 1000 0 1 1.
Proof.
  intros Hk Hz. split; [|split; [|split; [|split; [|split; [|split; cbn [INR]; lra]]]]].
  - intros x s _ _. unfold read_ev. generalize (start_of (gr_vars_to_starts ex12_g) x + s). intros i. do 11 (destruct i as [|i]; [cbn; lra|]); destruct i; cbn; lra.
  - intros f j _ _. unfold graph_pots, read_pots. destruct (f <? _); [|lra].
    match goal with |- (_ <= nth ?i _ _)%R => generalize i end. intros i. do 2 (destruct i as [|i]; [cbn; lra|]); destruct i; cbn; lra.
  - intros x. unfold slots_of. eapply Nat.le_trans; [apply filter_length_le|]. vm_compute. lia.
  - intros f Hf. assert (Hf2 : f < 1) by exact Hf. destruct f as [|]; [|lia]; vm_compute; lia.
  - intros f u s Hf Hu Hs. assert (Hf2 : f < 1) by exact Hf. destruct f as [|]; [|lia]; (destruct u as [|u]; [|exfalso; vm_compute in Hu; lia]);
      (destruct s as [|[|s]]; try (exfalso; vm_compute in Hs; lia)); vm_compute; discriminate.
Qed.
Lemma ex12_supported : supported (map snd (sf_edges ex12_fs)).
Proof. split; [vm_compute; discriminate|]. intros n Hn. vm_compute in Hn. repeat (destruct Hn as [<-|Hn]; [lia|]). destruct Hn. Qed.
Lemma ex12_above k z : above_floor (map snd (sf_edges ex12_fs)) (ba_ftov_msgs (ex12_a k z)).
Proof.
  intros e He. right. assert (e < 1) by exact He. unfold neg_inf.
  do 1 (destruct e as [|e]; [eapply Rle_trans; [|apply LemNum.rmaxs_ub; left; reflexivity]; cbn; lra|]). lia.
Qed.
Lemma ex12_msg c k z : (0 <= k < 1000)%R -> (1000 <= z)%R -> bp_of ex12_g 0%R c -> arrays_of c (ex12_a k z) ->
  read_msgs ex12_fs (ba_ftov_msgs (run_bp c (ex12_a k z) 1 0%R)) 0 0 0 = (-1000)%R /\ read_msgs ex12_fs (ba_ftov_msgs (run_bp c (ex12_a k z) 1 0%R)) 0 0 1 = 0%R.
Proof.
  intros Hk Hz H4 H5.
  pose proof (LemSep.run_text ex_vgs ex12_g 0%R c ex_vgs_ok (ex12_reach IZR) (ex12_wf IZR) H4 (ex12_a k z) H5 0%R 1000%R 0%R 1 1 (Rle_refl _) ltac:(lra) (ex12_moderate k z Hk Hz) ex12_supported (ex12_above k z) 1) as E.
  assert (F : forall s, s < 2 -> text_bp ex12_fs (graph_pots (gr_groups ex12_g) (ba_log_potentials (ex12_a k z))) 0 0 (read_ev (gr_vars_to_starts ex12_g) (ba_evidence (ex12_a k z))) (read_msgs ex12_fs (ba_ftov_msgs (ex12_a k z))) 1 0 0 s
    = Rmax (-1000) ((if s =? 0 then 0 else z) - z)).
  { intros s Hs. unfold text_bp. cbn [Nat.iter nat_rect]. set (m := normal _ _). unfold text_step, normal. change (snd (var_at ex12_fs 0 0)) with 2. cbn [seq map].
    assert (G : forall t, t < 2 -> damp 0 m (fac_to_var ex12_fs (graph_pots (gr_groups ex12_g) (ba_log_potentials (ex12_a k z))) 0 (var_to_fac ex12_fs (read_ev (gr_vars_to_starts ex12_g) (ba_evidence (ex12_a k z))) m)) 0 0 t = (if t =? 0 then 0 else z)%R).
    { intros t Ht. unfold damp, fac_to_var. destruct (Req_EM_T 0 0) as [_|C]; [|now elim C]. unfold fac_to_var_max. destruct t as [|[|t]]; [| |lia].
      - change (choices ex12_fs 0 0 0) with [0]. cbn [map rmaxs fold_right]. unfold score_but. change (filter _ _) with (@nil nat) at 1. cbn. lra.
      - change (choices ex12_fs 0 0 1) with [1]. cbn [map rmaxs fold_right]. unfold score_but. cbn. lra. }
    rewrite !G by lia. f_equal. f_equal. cbn. apply Rmax_left. lra. }
  split.
  - refine (eq_trans (E 0 0 0 _ _ _) _); [cbn; lia|cbn; lia|cbn; lia|]. refine (eq_trans (F 0 _) _); [lia|]. cbn [Nat.eqb]. unfold Rmax. destruct (Rle_dec _ _); lra.
  - refine (eq_trans (E 0 0 1 _ _ _) _); [cbn; lia|cbn; lia|cbn; lia|]. refine (eq_trans (F 1 _) _); [lia|]. cbn [Nat.eqb]. unfold Rmax. destruct (Rle_dec _ _); lra.
Qed.

(** Less than 1000 is not enough. *)
Theorem C62_smaller_refuted :
  forall k, (0 <= k < 1000)%R ->
  exists vgs (g : fgraph R) (c : bp_ctx R) a, groups_ok vgs /\ reachable vgs g /\ wf_groups (gr_groups g) /\ bp_of g 0%R c /\ arrays_of c a /\
  let fs := graph_factors 0%R (gr_groups g) in
  let ev := read_ev (gr_vars_to_starts g) (ba_evidence a) in
  moderate fs (graph_pots (gr_groups g) (ba_log_potentials a)) (length (enum_factors (gr_groups g))) ev 1000 0 1 1 /\
  supported (map snd (sf_edges fs)) /\ above_floor (map snd (sf_edges fs)) (ba_ftov_msgs a) /\
  exists gr x b q y, In gr vgs /\ nth_error (vg_variables gr) 0 = Some x /\ snd x = 2 /\ length (slots_of fs x) = 1 /\ ev x 0 = (ev x 1%nat + k)%R /\
  get_beliefs c (run_bp c a 1 0%R) = Ok b /\ decode_map_states b = Ok q /\ dget vg_eqb gr q = Some y /\ cell gr y 0 = [1].
Proof.
  intros k Hk. destruct (ex12_bp k 2000%R) as [c [H4 H5]]. exists ex_vgs, ex12_g, c, (ex12_a k 2000%R).
  do 5 (split; [first [exact ex_vgs_ok|apply ex12_reach|apply ex12_wf|assumption]|]). split; [apply ex12_moderate; lra|]. split; [exact ex12_supported|]. split; [apply ex12_above|].
  pose proof (LemStable.run_arrays ex_vgs ex12_g 0%R c ex_vgs_ok (ex12_reach IZR) (ex12_wf IZR) H4 0%R (ex12_a k 2000%R) 1 H5) as Hra.
  destruct (C34_map_states ex_vgs ex12_g 0%R c ex_vgs_ok (ex12_reach IZR) (ex12_wf IZR) H4 _ Hra ex_pos ex_not_one) as [b [q [Eb [Eq [_ Dq]]]]].
  destruct (Dq (VA ex_vg) (or_introl eq_refl)) as [y [Ey [_ Cy]]]. exists (VA ex_vg), b0, b, q, y.
  split; [now left|]. split; [reflexivity|]. split; [reflexivity|]. split; [reflexivity|]. split; [cbv -[IZR Rplus]; lra|]. do 3 (split; [assumption|]).
  destruct (Cy 0 b0 eq_refl) as [s [-> [F1 [F2 _]]]]. destruct s as [|[|s]]; [exfalso|reflexivity|cbn in F1; lia].
  specialize (F2 1 ltac:(cbn; lia)). destruct (ex12_msg c k 2000%R Hk ltac:(lra) H4 H5) as [M0 M1]. revert F2. unfold text_belief.
  change (slots_of _ b0) with [(0, 0)]. cbn [map fst snd rsum fold_right]. rewrite M0, M1. cbv -[IZR Rplus Rle]. lra.
Qed.
Print Assumptions C62_smaller_refuted.
