(** * Proofs about segment maxima, normalisation, damping and iteration (C29-C32). *)
From Verif Require Import NumPy Lists BP SpecBP LemNum.
From Coq Require Import Reals Lra Lia.
Local Open Scope nat_scope.

Lemma masked_all (w : list R) a b : b <= a ->
  map2 (fun i x => if i <? b then x else NEG_INF) (seq a (length w)) w = repeat neg_inf (length w).
Proof.
  revert a. induction w as [|y w IH]; intros a Hb; [reflexivity|]. cbn [length seq map2 repeat].
  destruct (Nat.ltb_spec a b); [lia|]. rewrite NEG_INF_R. f_equal. apply IH. lia.
Qed.
Lemma masked_window (len : nat) (w : list R) a :
  map2 (fun i x => if i <? a + len then x else NEG_INF) (seq a (length w)) w
  = firstn len w ++ repeat neg_inf (length w - len).
Proof.
  revert len a. induction w as [|x w IH]; intros len a; [now rewrite firstn_nil|].
  destruct len as [|len].
  - rewrite masked_all by lia. now rewrite Nat.sub_0_r.
  - cbn [length seq map2]. destruct (Nat.ltb_spec a (a + S len)); [|lia]. cbn [firstn app length Nat.sub]. f_equal.
    rewrite <- (IH len (S a)). replace (a + S len) with (S a + len) by lia. reflexivity.
Qed.

Definition padded_max (max_len len : nat) (seg : list R) : R :=
  if len <? max_len then Rmax neg_inf (rmaxs seg) else rmaxs seg.

Lemma dynamic_slice_in {A} (xs : list A) s size : s + size <= length xs ->
  dynamic_slice xs (Z.of_nat s) size = slice xs s (s + size).
Proof.
  intros H. unfold dynamic_slice, norm_idx. destruct (Z.ltb_spec (Z.of_nat s) 0); [lia|].
  replace (Z.to_nat (Z.max 0 (Z.min (Z.of_nat s) (Z.of_nat (length xs) - Z.of_nat size)))) with s by lia. reflexivity.
Qed.
Lemma firstn_slice {A} (xs : list A) s n k : k <= n -> firstn k (slice xs s (s + n)) = slice xs s (s + k).
Proof.
  intros H. unfold slice. replace (s + n - s) with n by lia. replace (s + k - s) with k by lia.
  rewrite firstn_firstn. f_equal. lia.
Qed.
Lemma rmaxs_pad l k : l <> [] -> rmaxs (l ++ repeat neg_inf (S k)) = Rmax neg_inf (rmaxs l).
Proof.
  intros H. rewrite rmaxs_app; [|exact H|discriminate]. rewrite Rmax_comm. f_equal.
  apply rmaxs_eq; [now left|]. intros x Hx. apply repeat_spec in Hx. subst. apply Rle_refl.
Qed.
Lemma slice_nonempty {A} (xs : list A) s n : 0 < n -> s + n <= length xs -> slice xs s (s + n) <> [].
Proof. intros Hn H E. apply (f_equal (@length A)) in E. rewrite slice_length in E. cbn in E. lia. Qed.

Lemma get_max_window max_len (xs : list R) start s len :
  0 < len <= max_len -> s + max_len <= length xs -> dynamic_slice xs start max_len = slice xs s (s + max_len) ->
  get_max max_len xs start len = padded_max max_len len (slice xs s (s + len)).
Proof.
  intros Hl Hs E. unfold get_max. rewrite E, jmax_R.
  pose proof (masked_window len (slice xs s (s + max_len)) 0) as M. cbn [Nat.add] in M.
  assert (L : length (slice xs s (s + max_len)) = max_len) by (rewrite slice_length; lia).
  rewrite L in M. rewrite M, firstn_slice by lia. unfold padded_max. destruct (Nat.ltb_spec len max_len).
  - replace (max_len - len) with (S (max_len - len - 1)) by lia. apply rmaxs_pad. apply slice_nonempty; lia.
  - replace (max_len - len) with 0 by lia. cbn [repeat]. now rewrite app_nil_r.
Qed.

Lemma slice_app1 {A} (xs ys : list A) a b : b <= length xs -> slice (xs ++ ys) a b = slice xs a b.
Proof.
  intros H. unfold slice. destruct (Nat.le_gt_cases a b).
  - rewrite skipn_app. replace (a - length xs) with 0 by lia. cbn [skipn]. rewrite firstn_app, skipn_length.
    replace (b - a - (length xs - a)) with 0 by lia. cbn [firstn]. now rewrite app_nil_r.
  - replace (b - a) with 0 by lia. reflexivity.
Qed.

Lemma segment_start_length lens : length (removelast ((-100000)%Z :: map Z.of_nat (cumsum lens))) = length lens.
Proof.
  rewrite removelast_firstn_len, firstn_length. cbn [length]. rewrite map_length. unfold cumsum. rewrite cumsum_from_length. lia.
Qed.
Lemma segment_start lens e : e < length lens ->
  nth e (removelast ((-100000)%Z :: map Z.of_nat (cumsum lens))) 0%Z = if e =? 0 then (-100000)%Z else Z.of_nat (off lens e).
Proof.
  intros He. rewrite removelast_firstn_len. cbn [length]. rewrite map_length. unfold cumsum at 1. rewrite cumsum_from_length.
  rewrite nth_firstn by lia. destruct e as [|e]; [reflexivity|]. cbn [nth Nat.eqb].
  rewrite (nth_map _ _ _ _ 0) by (unfold cumsum; rewrite cumsum_from_length; lia).
  unfold cumsum. rewrite nth_cumsum_from by lia. reflexivity.
Qed.
Lemma segment_max_length (data : list R) lens max_len : length (segment_max_opt data lens max_len) = length lens.
Proof. unfold segment_max_opt. rewrite map2_length, segment_start_length. lia. Qed.

Lemma segment_slice {B} lens (a : list B) e : segment lens a e = slice a (off lens e) (off lens e + nth e lens 0).
Proof. reflexivity. Qed.
Lemma segment_length {B} lens (a : list B) e : e < length lens -> list_sum lens = length a -> length (segment lens a e) = nth e lens 0.
Proof.
  intros He E. unfold segment. rewrite slice_length. pose proof (off_S lens e He). pose proof (off_le_sum lens (S e)). lia.
Qed.
Lemma off_bound lens e : e < length lens -> off lens e + nth e lens 0 <= list_sum lens.
Proof. intros He. rewrite <- off_S by exact He. apply off_le_sum. Qed.

Lemma nth_segment_max (data : list R) lens max_len e : e < length lens ->
  list_sum lens = length data -> (forall n, In n lens -> 0 < n <= max_len) ->
  (e = 0 -> (Z.of_nat (length data + max_len) <= 100000)%Z) ->
  nth e (segment_max_opt data lens max_len) 0%R = padded_max max_len (nth e lens 0) (segment lens data e).
Proof.
  intros He Hs Hn Hz. unfold segment_max_opt.
  rewrite (nth_map2 _ _ _ _ _ 0%Z 0) by (rewrite ?segment_start_length; lia).
  rewrite segment_start by exact He. pose proof (Hn (nth e lens 0) (nth_In _ _ He)) as Hl.
  pose proof (off_bound lens e He) as Hb.
  rewrite (get_max_window max_len _ _ (off lens e)).
  - rewrite slice_app1 by lia. reflexivity.
  - exact Hl.
  - rewrite app_length, repeat_length. lia.
  - destruct e as [|e]; cbn [Nat.eqb]; [|apply dynamic_slice_in; rewrite app_length, repeat_length; lia].
    rewrite off_0. rewrite <- (dynamic_slice_in _ 0) by (rewrite app_length, repeat_length; lia).
    specialize (Hz eq_refl). unfold dynamic_slice, norm_idx. rewrite app_length, repeat_length. cbn [Z.ltb Z.compare].
    replace (Z.max 0 (Z.min (-100000 + Z.of_nat (length data + max_len)) (Z.of_nat (length data + max_len) - Z.of_nat max_len)))%Z with 0%Z by lia.
    change (Z.of_nat 0) with 0%Z.
    replace (Z.max 0 (Z.min (if (0 <? 0)%Z then 0 + Z.of_nat (length data + max_len) else 0)%Z (Z.of_nat (length data + max_len) - Z.of_nat max_len)))%Z with 0%Z by (cbn [Z.ltb Z.compare]; lia).
    reflexivity.
Qed.

Lemma C30_correct_lemma (data : list R) lens max_len :
  list_sum lens = length data -> (forall n, In n lens -> 0 < n <= max_len) ->
  (Z.of_nat (length data + max_len) <= 100000)%Z ->
  length (segment_max_opt data lens max_len) = length lens /\
  forall e, e < length lens ->
    (nth e lens 0 = max_len \/ (neg_inf <= rmaxs (segment lens data e))%R ->
     nth e (segment_max_opt data lens max_len) 0%R = rmaxs (segment lens data e)) /\
    (nth e lens 0 < max_len -> (rmaxs (segment lens data e) < neg_inf)%R ->
     nth e (segment_max_opt data lens max_len) 0%R = neg_inf).
Proof.
  intros Hs Hn Hz. split; [apply segment_max_length|]. intros e He.
  rewrite nth_segment_max by auto. unfold padded_max. pose proof (Hn _ (nth_In _ 0 He)) as Hl.
  split.
  - intros H. destruct (Nat.ltb_spec (nth e lens 0) max_len); [|reflexivity].
    destruct H as [H|H]; [lia|]. now apply Rmax_right.
  - intros H1 H2. destruct (Nat.ltb_spec (nth e lens 0) max_len); [|lia]. apply Rmax_left. lra.
Qed.

(** Beyond the supported size the first segment is looked up elsewhere. *)
Lemma C30_oversize_lemma (data : list R) lens max_len w :
  list_sum lens = length data -> lens <> [] -> (forall n, In n lens -> 0 < n <= max_len) ->
  (Z.of_nat w = Z.of_nat (length data + max_len) - 100000)%Z -> 0 < w -> (Z.of_nat max_len <= 100000)%Z ->
  let window := slice (data ++ repeat 0%R max_len) w (w + nth 0 lens 0) in
  (nth 0 lens 0 = max_len \/ (neg_inf <= rmaxs window)%R ->
   nth 0 (segment_max_opt data lens max_len) 0%R = rmaxs window) /\
  (forall e, 0 < e < length lens -> nth e lens 0 = max_len \/ (neg_inf <= rmaxs (segment lens data e))%R ->
   nth e (segment_max_opt data lens max_len) 0%R = rmaxs (segment lens data e)).
Proof.
  intros Hs Hne Hn Hw Hw0 Hm. cbv zeta. assert (H0 : 0 < length lens) by (destruct lens; [contradiction|cbn; lia]).
  split.
  - intros H. unfold segment_max_opt. rewrite (nth_map2 _ _ _ _ _ 0%Z 0) by (rewrite ?segment_start_length; lia).
    rewrite segment_start by exact H0. cbn [Nat.eqb]. pose proof (Hn _ (nth_In _ 0 H0)) as Hl.
    rewrite (get_max_window max_len _ _ w).
    + unfold padded_max. destruct (Nat.ltb_spec (nth 0 lens 0) max_len); [|reflexivity].
      destruct H as [H|H]; [lia|]. now apply Rmax_right.
    + exact Hl.
    + rewrite app_length, repeat_length. lia.
    + unfold dynamic_slice, norm_idx. rewrite app_length, repeat_length. cbn [Z.ltb Z.compare].
      replace (Z.to_nat (Z.max 0 (Z.min (-100000 + Z.of_nat (length data + max_len)) (Z.of_nat (length data + max_len) - Z.of_nat max_len)))) with w by lia.
      reflexivity.
  - intros e He H. rewrite nth_segment_max by (auto; lia). unfold padded_max. pose proof (Hn _ (nth_In _ 0 (proj2 He))) as Hl.
    destruct (Nat.ltb_spec (nth e lens 0) max_len); [|reflexivity]. destruct H as [H|H]; [lia|]. now apply Rmax_right.
Qed.

(** ** Normalisation *)
Lemma repeat_maxes (maxes : list R) lens e s : length maxes = length lens -> e < length lens -> s < nth e lens 0 ->
  nth (off lens e + s) (jnp_repeat 0%R maxes lens (list_sum lens)) 0%R = nth e maxes 0%R.
Proof.
  intros Hl He Hs. unfold jnp_repeat. pose proof (off_block_lt lens e s He Hs) as Hb.
  assert (ML : map (@length R) (map2 (fun x r => repeat x r) maxes lens) = lens).
  { clear - Hl. revert lens Hl. induction maxes as [|x maxes IH]; intros [|n lens] Hl; try discriminate; [reflexivity|].
    cbn [map2 map]. rewrite repeat_length. f_equal. apply IH. now injection Hl. }
  assert (LC : length (concat (map2 (fun x r => repeat x r) maxes lens)) = list_sum lens) by (rewrite concat_length, ML; reflexivity).
  rewrite nth_firstn by exact Hb. rewrite app_nth1 by lia.
  rewrite <- ML at 1. rewrite nth_concat; [| |].
  - rewrite (nth_map2 _ _ _ _ _ 0%R 0) by lia. apply nth_repeat_lt. exact Hs.
  - rewrite map2_length. lia.
  - rewrite (nth_map2 _ _ _ _ _ 0%R 0) by lia. rewrite repeat_length. exact Hs.
Qed.
Lemma jnp_repeat_length {A} (d : A) xs reps n : length (jnp_repeat d xs reps n) = n.
Proof. unfold jnp_repeat. rewrite firstn_length, app_length, repeat_length. lia. Qed.
Lemma normalize_length (msgs : list R) lens m : length (normalize_and_clip_msgs msgs lens m) = length msgs.
Proof. unfold normalize_and_clip_msgs, vsub. rewrite map_length, map2_length, jnp_repeat_length. lia. Qed.

Lemma nth_normalize (msgs : list R) lens max_len e s :
  list_sum lens = length msgs -> e < length lens -> s < nth e lens 0 ->
  nth (off lens e + s) (normalize_and_clip_msgs msgs lens max_len) 0%R
  = Rmax (-1000) (nth (off lens e + s) msgs 0 - nth e (segment_max_opt msgs lens max_len) 0)%R.
Proof.
  intros Hs He Hl. pose proof (off_block_lt lens e s He Hl) as Hb. unfold normalize_and_clip_msgs, vsub.
  rewrite (nth_map _ _ _ _ 0%R) by (rewrite map2_length, jnp_repeat_length; lia). rewrite nmax_R. f_equal.
  rewrite (nth_map2 _ _ _ _ _ 0%R 0%R) by (rewrite ?jnp_repeat_length; lia). rewrite nsub_R. f_equal.
  rewrite <- Hs. apply repeat_maxes; auto. apply segment_max_length.
Qed.

(** The textbook normalisation. *)
Lemma supported_bounds lens : supported lens -> forall n, In n lens -> 0 < n <= nat_max lens.
Proof. intros [_ H] n Hn. split; [now apply H|now apply nat_max_ge]. Qed.
Lemma nth_normalize_ok (msgs : list R) lens e s : supported lens -> list_sum lens = length msgs -> e < length lens ->
  nth e lens 0 = nat_max lens \/ (neg_inf <= rmaxs (segment lens msgs e))%R -> s < nth e lens 0 ->
  nth (off lens e + s) (normalize_and_clip_msgs msgs lens (nat_max lens)) 0%R
  = Rmax (-1000) (nth (off lens e + s) msgs 0 - rmaxs (segment lens msgs e))%R.
Proof.
  intros Hsup Hs He Hf Hl. rewrite nth_normalize by auto.
  destruct (C30_correct_lemma msgs lens (nat_max lens) Hs (supported_bounds lens Hsup)) as [_ C]; [rewrite <- Hs; apply Hsup|].
  now rewrite (proj1 (C e He) Hf).
Qed.
Lemma In_segment (a : list R) lens e x : list_sum lens = length a -> e < length lens ->
  In x (segment lens a e) <-> exists s, s < nth e lens 0 /\ x = nth (off lens e + s) a 0%R.
Proof.
  intros Hs He. rewrite (In_nth_iff _ _ 0%R). rewrite segment_length by auto. split; intros [s [H1 H2]]; exists s; (split; [exact H1|]);
    unfold segment in *; rewrite nth_slice in * by lia; congruence.
Qed.
Lemma segment_nonempty lens (a : list R) e : supported lens -> list_sum lens = length a -> e < length lens -> segment lens a e <> [].
Proof.
  intros [_ H] Hs He E. apply (f_equal (@length R)) in E. rewrite segment_length in E by auto.
  specialize (H _ (nth_In _ 0 He)). cbn in E. lia.
Qed.
Lemma normalize_normalised (msgs : list R) lens : supported lens -> list_sum lens = length msgs -> above_floor lens msgs ->
  normalised lens (normalize_and_clip_msgs msgs lens (nat_max lens)).
Proof.
  intros Hsup Hs Hf e He. set (N := normalize_and_clip_msgs msgs lens (nat_max lens)).
  assert (HsN : list_sum lens = length N) by (unfold N; now rewrite normalize_length).
  assert (V : forall s, s < nth e lens 0 -> nth (off lens e + s) N 0%R = Rmax (-1000) (nth (off lens e + s) msgs 0 - rmaxs (segment lens msgs e))%R)
    by (intros s Hl; apply nth_normalize_ok; auto).
  assert (B : forall x, In x (segment lens N e) -> (-1000 <= x <= 0)%R).
  { intros x Hx. apply (In_segment N lens e x HsN He) in Hx. destruct Hx as [s [Hl ->]]. rewrite V by exact Hl. split; [apply Rmax_l|].
    apply Rmax_lub; [lra|]. assert (nth (off lens e + s) msgs 0%R <= rmaxs (segment lens msgs e))%R; [|lra].
    apply rmaxs_ub. apply In_segment; auto. now exists s. }
  split; [|exact B]. apply rmaxs_eq; [|intros x Hx; apply B; exact Hx].
  pose proof (rmaxs_In (segment lens msgs e) (segment_nonempty lens msgs e Hsup Hs He)) as Hi.
  pose proof (proj1 (In_segment msgs lens e _ Hs He) Hi) as [s [Hl E]]. apply In_segment; auto. exists s. split; [exact Hl|].
  rewrite V, <- E by exact Hl. rewrite Rmax_right; lra.
Qed.
Lemma nth_eq_off (a b : list R) lens : list_sum lens = length a -> list_sum lens = length b ->
  (forall e s, e < length lens -> s < nth e lens 0 -> nth (off lens e + s) a 0%R = nth (off lens e + s) b 0%R) -> a = b.
Proof.
  intros Ha Hb H. apply (nth_ext _ _ 0%R 0%R); [congruence|]. intros p Hp. rewrite <- Ha in Hp.
  destruct (off_split lens p Hp) as [e [s [He [Hl ->]]]]. now apply H.
Qed.
Lemma normalised_above lens a : normalised lens a -> above_floor lens a.
Proof. intros H e He. right. rewrite (proj1 (H e He)). unfold neg_inf. lra. Qed.
Lemma normalize_idem (msgs : list R) lens : supported lens -> list_sum lens = length msgs -> normalised lens msgs ->
  normalize_and_clip_msgs msgs lens (nat_max lens) = msgs.
Proof.
  intros Hsup Hs Hn. apply (nth_eq_off _ _ lens); [now rewrite normalize_length|exact Hs|].
  intros e s He Hl. rewrite nth_normalize_ok; auto; [|now apply normalised_above]. destruct (Hn e He) as [-> B].
  rewrite Rminus_0_r. apply Rmax_right. apply B. apply In_segment; auto. now exists s.
Qed.

(** ** One iteration *)
Lemma bp_step_damped (c : bp_ctx R) lp ev d msgs :
  bp_step c lp ev d msgs = normalize_and_clip_msgs (damped c lp ev d msgs) (bc_edges_num_states c) (bc_max_msg_size c).
Proof.
  unfold bp_step, damped, vadd, vsub. f_equal.
  generalize (pass_fac_to_var_messages (bs_fg_state (bc_state c)) (bc_temperature c) lp (pass_var_to_fac_messages msgs ev (bc_var_states_for_edges c))).
  induction msgs as [|x msgs IH]; intros [|y l]; [reflexivity|reflexivity|reflexivity|]. cbn [map2 map].
  rewrite IH. f_equal. rewrite nadd_R, nmul_R, (nsub_R y x), nsub_R, n1_R. lra.
Qed.

Lemma run_bp_unnormalised (c : bp_ctx R) a d n :
  ba_ftov_msgs (run_bp c a n d) = normalize_and_clip_msgs (unnormalised c a d n) (bc_edges_num_states c) (bc_max_msg_size c).
Proof.
  destruct n as [|n]; [reflexivity|]. unfold unnormalised. unfold run_bp at 1. cbn [ba_ftov_msgs Nat.iter nat_rect].
  rewrite bp_step_damped. reflexivity.
Qed.

(** What BP() guarantees about its sizes. *)
Lemma BP_max bs T (c : bp_ctx R) : BP bs T = Ok c -> bc_max_msg_size c = nat_max (bc_edges_num_states c).
Proof. unfold BP. destruct (all_edges_num_states _); [discriminate|]. intros H. injection H as <-. reflexivity. Qed.

Lemma C29_lemma bs T (c : bp_ctx R) a d n : BP bs T = Ok c ->
  let lens := bc_edges_num_states c in
  supported lens -> list_sum lens = length (unnormalised c a d n) -> above_floor lens (unnormalised c a d n) ->
  normalised lens (ba_ftov_msgs (run_bp c a n d)).
Proof.
  intros HB lens Hsup Hs Hf. rewrite run_bp_unnormalised, (BP_max bs T c HB). now apply normalize_normalised.
Qed.

Lemma C31_lemma bs T (c : bp_ctx R) a d n m : BP bs T = Ok c ->
  let lens := bc_edges_num_states c in
  supported lens -> list_sum lens = length (unnormalised c a d n) -> above_floor lens (unnormalised c a d n) ->
  run_bp c (run_bp c a n d) m d = run_bp c a (n + m) d.
Proof.
  intros HB lens Hsup Hs Hf. pose proof (C29_lemma bs T c a d n HB Hsup Hs Hf) as Hn.
  assert (E : normalize_and_clip_msgs (ba_ftov_msgs (run_bp c a n d)) (bc_edges_num_states c) (bc_max_msg_size c) = ba_ftov_msgs (run_bp c a n d)).
  { rewrite (BP_max bs T c HB). apply normalize_idem; [exact Hsup| |exact Hn]. rewrite run_bp_unnormalised, normalize_length. exact Hs. }
  unfold run_bp at 1. rewrite E. unfold run_bp. cbn [ba_log_potentials ba_ftov_msgs ba_evidence]. f_equal.
  generalize (bp_step c (ba_log_potentials a) (ba_evidence a) d). intros f.
  intros. rewrite (Nat.add_comm n m). induction m as [|m IH]; [reflexivity|]. change (Nat.iter (S m) f) with (fun x => f (Nat.iter m f x)). cbn beta. rewrite IH. reflexivity.
Qed.

Lemma damped_one (c : bp_ctx R) lp ev msgs :
  length msgs <= length (pass_fac_to_var_messages (bs_fg_state (bc_state c)) (bc_temperature c) lp (pass_var_to_fac_messages msgs ev (bc_var_states_for_edges c))) ->
  damped c lp ev 1%R msgs = msgs.
Proof.
  unfold damped. generalize (pass_fac_to_var_messages (bs_fg_state (bc_state c)) (bc_temperature c) lp (pass_var_to_fac_messages msgs ev (bc_var_states_for_edges c))).
  induction msgs as [|x msgs IH]; intros [|y l] H; [reflexivity|reflexivity|cbn in H; lia|]. cbn [map2].
  rewrite IH by (cbn in H; lia). f_equal. lra.
Qed.
Lemma pass_var_to_fac_length (msgs ev : list R) vs : length (pass_var_to_fac_messages msgs ev vs) = Nat.min (length vs) (length msgs).
Proof. unfold pass_var_to_fac_messages, vsub. now rewrite map2_length, gather_length. Qed.
Lemma pass_fac_to_var_length (st : fg_state R) T lp v : length (pass_fac_to_var_messages st T lp v) = length v.
Proof. unfold pass_fac_to_var_messages. now rewrite !blit_length, repeat_length. Qed.
Lemma damped_length (c : bp_ctx R) lp ev d msgs : length (bc_var_states_for_edges c) = length msgs -> length (damped c lp ev d msgs) = length msgs.
Proof. intros H. unfold damped. cbv zeta. rewrite map2_length, pass_fac_to_var_length, pass_var_to_fac_length. lia. Qed.
Lemma unnormalised_length (c : bp_ctx R) a d n : length (bc_var_states_for_edges c) = length (ba_ftov_msgs a) ->
  length (unnormalised c a d n) = length (ba_ftov_msgs a).
Proof.
  intros H. induction n as [|n IH]; [reflexivity|]. cbn [unnormalised].
  assert (E : length (ba_ftov_msgs (run_bp c a n d)) = length (ba_ftov_msgs a)) by (rewrite run_bp_unnormalised, normalize_length; exact IH).
  rewrite damped_length; congruence.
Qed.
Lemma run_bp_length (c : bp_ctx R) a d n : length (bc_var_states_for_edges c) = length (ba_ftov_msgs a) ->
  length (ba_ftov_msgs (run_bp c a n d)) = length (ba_ftov_msgs a).
Proof. intros H. rewrite run_bp_unnormalised, normalize_length. now apply unnormalised_length. Qed.

(** A vector whose update differs from it by constants per edge. *)
Lemma C32_fixed_lemma bs T (c : bp_ctx R) lp ev d msgs (k : nat -> R) : BP bs T = Ok c ->
  let lens := bc_edges_num_states c in
  let new := pass_fac_to_var_messages (bs_fg_state (bc_state c)) (bc_temperature c) lp
               (pass_var_to_fac_messages msgs ev (bc_var_states_for_edges c)) in
  supported lens -> list_sum lens = length msgs -> list_sum lens = length (bc_var_states_for_edges c) -> normalised lens msgs ->
  (forall e s, e < length lens -> s < nth e lens 0 -> (nth (off lens e + s) new 0 = nth (off lens e + s) msgs 0 + k e)%R) ->
  (forall e, e < length lens -> (neg_inf <= (1 - d) * k e)%R) ->
  bp_step c lp ev d msgs = msgs.
Proof.
  intros HB lens new Hsup Hs Hv Hn Hk Hf. rewrite bp_step_damped, (BP_max bs T c HB). fold lens.
  assert (Ln : length new = length msgs) by (unfold new; rewrite pass_fac_to_var_length, pass_var_to_fac_length; lia).
  assert (Ld : length (damped c lp ev d msgs) = length msgs) by (apply damped_length; congruence).
  assert (V : forall e s, e < length lens -> s < nth e lens 0 -> (nth (off lens e + s) (damped c lp ev d msgs) 0 = nth (off lens e + s) msgs 0 + (1 - d) * k e)%R).
  { intros e s He Hl. pose proof (off_block_lt lens e s He Hl). unfold damped. fold new.
    rewrite (nth_map2 _ _ _ _ _ 0%R 0%R) by lia. rewrite Hk by assumption. lra. }
  assert (M : forall e, e < length lens -> (rmaxs (segment lens (damped c lp ev d msgs) e) = (1 - d) * k e)%R).
  { intros e He. assert (Hsd : list_sum lens = length (damped c lp ev d msgs)) by congruence.
    destruct (Hn e He) as [N0 B]. apply rmaxs_eq.
    - pose proof (rmaxs_In _ (segment_nonempty lens msgs e Hsup Hs He)) as Hi.
      pose proof (proj1 (In_segment msgs lens e _ Hs He) Hi) as [s [Hl E]].
      apply In_segment; auto. exists s. split; [exact Hl|]. rewrite V, <- E, N0 by auto. lra.
    - intros x Hx. pose proof (proj1 (In_segment _ lens e x Hsd He) Hx) as [s [Hl ->]]. rewrite V by auto.
      assert (nth (off lens e + s) msgs 0 <= 0)%R; [|lra]. apply B. apply In_segment; auto. now exists s. }
  apply (nth_eq_off _ _ lens); [rewrite normalize_length; congruence|exact Hs|].
  intros e s He Hl. rewrite nth_normalize_ok; auto; [|congruence|right; rewrite M; auto].
  rewrite V, M by auto. replace (nth (off lens e + s) msgs 0 + (1 - d) * k e - (1 - d) * k e)%R with (nth (off lens e + s) msgs 0%R) by lra.
  apply Rmax_right. apply (Hn e He). apply In_segment; auto. now exists s.
Qed.
Lemma C32_freeze_lemma bs T (c : bp_ctx R) lp ev msgs : BP bs T = Ok c ->
  let lens := bc_edges_num_states c in
  supported lens -> list_sum lens = length msgs -> list_sum lens = length (bc_var_states_for_edges c) -> normalised lens msgs ->
  bp_step c lp ev 1%R msgs = msgs.
Proof.
  intros HB lens Hsup Hs Hv Hn. rewrite bp_step_damped, damped_one, (BP_max bs T c HB); [now apply normalize_idem|].
  rewrite pass_fac_to_var_length, pass_var_to_fac_length. lia.
Qed.
