(** * Lemmas about real numbers, sums, maxima, gathers and scatters. *)
From Verif Require Import NumPy Lists SpecBP.
From Coq Require Import Reals Lra Lia Permutation.
Local Open Scope nat_scope.

(** ** The operations of [Num R] *)
Lemma nadd_R (x y : R) : nadd x y = (x + y)%R. Proof. reflexivity. Qed.
Lemma nsub_R (x y : R) : nsub x y = (x - y)%R. Proof. reflexivity. Qed.
Lemma nmul_R (x y : R) : nmul x y = (x * y)%R. Proof. reflexivity. Qed.
Lemma ndiv_R (x y : R) : ndiv x y = (x / y)%R. Proof. reflexivity. Qed.
Lemma n0_R : (n0 : R) = 0%R. Proof. reflexivity. Qed.
Lemma n1_R : (n1 : R) = 1%R. Proof. reflexivity. Qed.
Lemma nopp_R (x : R) : nopp x = (- x)%R. Proof. unfold nopp. rewrite n0_R, nsub_R. lra. Qed.
Lemma NEG_INF_R : (NEG_INF : R) = neg_inf. Proof. reflexivity. Qed.
Lemma nmax_R (x y : R) : nmax x y = Rmax x y.
Proof. unfold nmax, Rmax. cbn. destruct (Rlt_dec x y), (Rle_dec x y); lra. Qed.
Lemma nmin_R (x y : R) : nmin x y = Rmin x y.
Proof. unfold nmin, Rmin. cbn. destruct (Rlt_dec y x), (Rle_dec x y); lra. Qed.
Lemma neqb_R (x y : R) : neqb x y = true <-> x = y.
Proof. cbn. destruct (Req_EM_T x y); split; congruence. Qed.
Lemma neqb_R_false (x y : R) : neqb x y = false <-> x <> y.
Proof. cbn. destruct (Req_EM_T x y); split; congruence. Qed.
Lemma nltb_R (x y : R) : nltb x y = true <-> (x < y)%R.
Proof. cbn. destruct (Rlt_dec x y); split; intros; try congruence; lra. Qed.

(** ** Sums *)
Local Open Scope R_scope.
Lemma rsum_nil : rsum [] = 0. Proof. reflexivity. Qed.
Lemma rsum_cons x l : rsum (x :: l) = x + rsum l. Proof. reflexivity. Qed.
Lemma rsum_app l l' : rsum (l ++ l') = rsum l + rsum l'.
Proof. induction l as [|x l IH]; cbn [app]; rewrite ?rsum_cons, ?rsum_nil; [lra|]. rewrite IH. lra. Qed.
Lemma fold_left_Rplus l a : fold_left Rplus l a = a + rsum l.
Proof. revert a. induction l as [|x l IH]; intros a; cbn [fold_left]; [rewrite ?rsum_nil; lra|]. rewrite IH, rsum_cons. lra. Qed.
Lemma rsum_plus {X} (f g : X -> R) l : rsum (map (fun x => f x + g x) l) = rsum (map f l) + rsum (map g l).
Proof. induction l as [|x l IH]; cbn [map]; rewrite ?rsum_cons, ?rsum_nil; [lra|]. rewrite IH. lra. Qed.
Lemma rsum_scal {X} (f : X -> R) k l : rsum (map (fun x => k * f x) l) = k * rsum (map f l).
Proof. induction l as [|x l IH]; cbn [map]; rewrite ?rsum_cons, ?rsum_nil; [lra|]. rewrite IH. lra. Qed.
Lemma rsum_ext {X} (f g : X -> R) l : (forall x, In x l -> f x = g x) -> rsum (map f l) = rsum (map g l).
Proof. intros H. f_equal. now apply map_ext_in. Qed.
Lemma rsum_filter_split {X} (p : X -> bool) (f : X -> R) l :
  rsum (map f l) = rsum (map f (filter p l)) + rsum (map f (filter (fun x => negb (p x)) l)).
Proof.
  induction l as [|x l IH]; cbn [map filter]; [rewrite ?rsum_nil; lra|]. destruct (p x); cbn [negb map]; rewrite !rsum_cons, IH; lra.
Qed.
Lemma rsum_le {X} (f g : X -> R) l : (forall x, In x l -> f x <= g x) -> rsum (map f l) <= rsum (map g l).
Proof.
  induction l as [|x l IH]; intros H; cbn [map]; [rewrite ?rsum_nil; lra|]. rewrite !rsum_cons.
  assert (f x <= g x) by (apply H; now left). assert (rsum (map f l) <= rsum (map g l)) by (apply IH; intros; apply H; now right). lra.
Qed.
Lemma rsum_const {X} (l : list X) k : rsum (map (fun _ => k) l) = INR (length l) * k.
Proof. induction l as [|x l IH]; cbn [map length]; [rewrite rsum_nil; change (INR 0) with 0; lra|]. rewrite rsum_cons, IH, S_INR. lra. Qed.
Lemma rsum_nonneg l : (forall x, In x l -> 0 <= x) -> 0 <= rsum l.
Proof.
  induction l as [|x l IH]; intros H; [rewrite ?rsum_nil; lra|]. rewrite rsum_cons.
  assert (0 <= x) by (apply H; now left). assert (0 <= rsum l) by (apply IH; intros; apply H; now right). lra.
Qed.
Lemma rsum_pos l : l <> [] -> (forall x, In x l -> 0 < x) -> 0 < rsum l.
Proof.
  destruct l as [|x l]; intros Hn H; [contradiction|]. rewrite rsum_cons.
  assert (0 < x) by (apply H; now left). assert (0 <= rsum l) by (apply rsum_nonneg; intros y Hy; left; apply H; now right). lra.
Qed.
Lemma rsum_perm l l' : Permutation l l' -> rsum l = rsum l'.
Proof. induction 1; rewrite ?rsum_cons; lra. Qed.
Lemma In_rsum_le l x : In x l -> (forall y, In y l -> 0 <= y) -> x <= rsum l.
Proof.
  induction l as [|y l IH]; intros Hx H; [destruct Hx|]. rewrite rsum_cons.
  assert (0 <= y) by (apply H; now left). assert (0 <= rsum l) by (apply rsum_nonneg; intros; apply H; now right).
  destruct Hx as [->|Hx]; [lra|]. assert (x <= rsum l) by (apply IH; auto; intros; apply H; now right). lra.
Qed.

(** ** Maxima *)
Lemma rmax_cons a x l : rmax a (x :: l) = Rmax x (rmax a l). Proof. reflexivity. Qed.
Lemma rmax_Rmax a b l : rmax (Rmax a b) l = Rmax a (rmax b l).
Proof.
  induction l as [|x l IH]; [reflexivity|]. rewrite !rmax_cons, IH, !Rmax_assoc. f_equal. apply Rmax_comm.
Qed.
Lemma fold_left_Rmax l a : fold_left Rmax l a = rmax a l.
Proof.
  revert a. induction l as [|x l IH]; intros a; [reflexivity|]. cbn [fold_left]. rewrite IH, rmax_cons.
  rewrite (Rmax_comm a x). apply rmax_Rmax.
Qed.
Lemma rmax_app a l l' : rmax a (l ++ l') = Rmax (rmax a l) (rmax a l').
Proof.
  induction l as [|x l IH]; cbn [app]; rewrite ?rmax_cons.
  - cbn [rmax fold_right]. fold (rmax a l'). symmetry. apply Rmax_right.
    induction l' as [|y l' IH]; [apply Rle_refl|]. rewrite rmax_cons. eapply Rle_trans; [exact IH|apply Rmax_r].
  - now rewrite IH, Rmax_assoc.
Qed.
Lemma rmax_ge a l : a <= rmax a l.
Proof. induction l as [|x l IH]; [apply Rle_refl|]. rewrite rmax_cons. eapply Rle_trans; [exact IH|apply Rmax_r]. Qed.
Lemma rmax_ub a l x : In x l -> x <= rmax a l.
Proof.
  induction l as [|y l IH]; intros H; [destruct H|]. rewrite rmax_cons. destruct H as [->|H]; [apply Rmax_l|].
  eapply Rle_trans; [now apply IH|apply Rmax_r].
Qed.
Lemma rmax_lub a l b : a <= b -> (forall x, In x l -> x <= b) -> rmax a l <= b.
Proof.
  intros Ha. induction l as [|y l IH]; intros H; [exact Ha|]. rewrite rmax_cons. apply Rmax_lub.
  - apply H. now left.
  - apply IH. intros x Hx. apply H. now right.
Qed.
Lemma rmax_attained a l : rmax a l = a \/ In (rmax a l) l.
Proof.
  induction l as [|y l IH]; [now left|]. rewrite rmax_cons. unfold Rmax. destruct (Rle_dec y (rmax a l)).
  - destruct IH as [IH|IH]; [now left|right; now right].
  - right. now left.
Qed.
Lemma rmaxs_ub l x : In x l -> x <= rmaxs l.
Proof. destruct l as [|y l]; intros H; [destruct H|]. destruct H as [->|H]; [apply rmax_ge|now apply rmax_ub]. Qed.
Lemma rmaxs_In l : l <> [] -> In (rmaxs l) l.
Proof. destruct l as [|y l]; [contradiction|]. intros _. cbn [rmaxs]. destruct (rmax_attained y l) as [->|H]; [now left|now right]. Qed.
(** The maximum of a non-empty list is characterised by being an upper bound in it. *)
Lemma rmaxs_eq l b : In b l -> (forall x, In x l -> x <= b) -> rmaxs l = b.
Proof.
  intros Hb H. assert (l <> []) by (intros ->; destruct Hb). apply Rle_antisym.
  - apply H. now apply rmaxs_In.
  - now apply rmaxs_ub.
Qed.
Lemma rmaxs_lub l b : l <> [] -> (forall x, In x l -> x <= b) -> rmaxs l <= b.
Proof. intros Hn H. apply H. now apply rmaxs_In. Qed.
Lemma rmax_rmaxs a l : l <> [] -> rmax a l = Rmax a (rmaxs l).
Proof. destruct l as [|x l]; [contradiction|]. intros _. cbn [rmaxs]. rewrite rmax_cons, <- (rmax_Rmax x a), (Rmax_comm x a). apply rmax_Rmax. Qed.
Lemma rmaxs_cons x l : l <> [] -> rmaxs (x :: l) = Rmax x (rmaxs l).
Proof. intros H. cbn [rmaxs]. now rewrite rmax_rmaxs. Qed.
Lemma rmaxs_shift {X} (f : X -> R) k l : l <> [] -> rmaxs (map (fun x => f x + k) l) = rmaxs (map f l) + k.
Proof.
  intros H. apply rmaxs_eq.
  - assert (Hi : In (rmaxs (map f l)) (map f l)) by (apply rmaxs_In; destruct l; [contradiction|discriminate]).
    apply in_map_iff in Hi. destruct Hi as [x [<- Hx]]. apply in_map_iff. now exists x.
  - intros y Hy. apply in_map_iff in Hy. destruct Hy as [x [<- Hx]].
    assert (f x <= rmaxs (map f l)) by (apply rmaxs_ub; now apply in_map). lra.
Qed.
Lemma rmaxs_app l l' : l <> [] -> l' <> [] -> rmaxs (l ++ l') = Rmax (rmaxs l) (rmaxs l').
Proof.
  intros H H'. apply rmaxs_eq.
  - apply in_or_app. destruct (Rle_or_lt (rmaxs l) (rmaxs l')) as [E|E].
    + rewrite Rmax_right by exact E. right. now apply rmaxs_In.
    + rewrite Rmax_left by lra. left. now apply rmaxs_In.
  - intros x Hx. apply in_app_or in Hx. destruct Hx as [Hx|Hx].
    + apply (Rle_trans _ (rmaxs l)); [now apply rmaxs_ub|apply Rmax_l].
    + apply (Rle_trans _ (rmaxs l')); [now apply rmaxs_ub|apply Rmax_r].
Qed.
Lemma rmaxs_same l l' : (forall x, In x l <-> In x l') -> l <> [] -> rmaxs l = rmaxs l'.
Proof.
  intros E Hn. symmetry. apply rmaxs_eq.
  - apply E. now apply rmaxs_In.
  - intros x Hx. apply rmaxs_ub. now apply E.
Qed.
Lemma jmax_R (l : list R) : jmax l = rmaxs l.
Proof.
  destruct l as [|x l]; [reflexivity|]. cbn [jmax rmaxs]. rewrite <- fold_left_Rmax.
  revert x. induction l as [|y l IH]; intros x; [reflexivity|]. cbn [fold_left]. rewrite nmax_R. apply IH.
Qed.
Local Close Scope R_scope.

(** ** Gathers and scatters *)
Lemma gather1_in {A} (d : A) xs i : (0 <= i < Z.of_nat (length xs))%Z -> gather1 d xs i = nth (Z.to_nat i) xs d.
Proof.
  intros H. unfold gather1, norm_idx. destruct (Z.ltb_spec i 0); [lia|]. f_equal. lia.
Qed.
Lemma gather_length {A} (d : A) xs idx : length (gather d xs idx) = length idx.
Proof. apply map_length. Qed.
Lemma nth_gather {A} (d : A) xs idx k : k < length idx -> (0 <= nth k idx 0 < Z.of_nat (length xs))%Z ->
  nth k (gather d xs idx) d = nth (Z.to_nat (nth k idx 0%Z)) xs d.
Proof. intros Hk H. unfold gather. rewrite (nth_map _ _ _ _ 0%Z) by exact Hk. now apply gather1_in. Qed.

Lemma scatter1_length {A V} (f : A -> V -> A) xs iv : length (scatter1 f xs iv) = length xs.
Proof. unfold scatter1. destruct (_ <? 0)%Z; [reflexivity|apply upd_length]. Qed.
Lemma scatter_length {A V} (f : A -> V -> A) xs idx vals : length (scatter f xs idx vals) = length xs.
Proof.
  unfold scatter. generalize (combine idx vals). intros l. revert xs. induction l as [|iv l IH]; intros xs; [reflexivity|].
  cbn [fold_left]. rewrite IH. apply scatter1_length.
Qed.
(** The value at [p]: the updates whose index is [p], in order. *)
Lemma nth_scatter_pairs {A V} (f : A -> V -> A) l xs p d :
  (forall iv, In iv l -> (0 <= fst iv)%Z) -> p < length xs ->
  nth p (fold_left (scatter1 f) l xs) d
  = fold_left f (map snd (filter (fun iv => (fst iv =? Z.of_nat p)%Z) l)) (nth p xs d).
Proof.
  revert xs. induction l as [|iv l IH]; intros xs H Hp; [reflexivity|]. cbn [fold_left filter].
  rewrite IH; [|intros; apply H; now right|now rewrite scatter1_length].
  assert (H0 : (0 <= fst iv)%Z) by (apply H; now left).
  unfold scatter1, norm_idx. destruct (Z.ltb_spec (fst iv) 0); [lia|]. destruct (Z.ltb_spec (fst iv) 0); [lia|].
  destruct (Z.eqb_spec (fst iv) (Z.of_nat p)) as [E|E].
  - cbn [map fold_left]. f_equal. rewrite E, Nat2Z.id. now rewrite nth_upd_eq.
  - f_equal. rewrite nth_upd_neq; [reflexivity|]. lia.
Qed.
Lemma combine_map {X Y Z} (f : X -> Y) (g : X -> Z) l : combine (map f l) (map g l) = map (fun x => (f x, g x)) l.
Proof. induction l as [|x l IH]; [reflexivity|]. cbn [map combine]. now rewrite IH. Qed.
Lemma filter_map {X Y} (p : Y -> bool) (f : X -> Y) l : filter p (map f l) = map f (filter (fun x => p (f x)) l).
Proof. induction l as [|x l IH]; [reflexivity|]. cbn [map filter]. rewrite IH. now destruct (p (f x)). Qed.
Lemma nth_scatter_map {A V X} (f : A -> V -> A) (i : X -> Z) (v : X -> V) l xs p d :
  (forall x, In x l -> (0 <= i x)%Z) -> p < length xs ->
  nth p (scatter f xs (map i l) (map v l)) d
  = fold_left f (map v (filter (fun x => (i x =? Z.of_nat p)%Z) l)) (nth p xs d).
Proof.
  intros H Hp. unfold scatter. rewrite combine_map, nth_scatter_pairs; [|intros iv Hi; apply in_map_iff in Hi; destruct Hi as [x [<- Hx]]; now apply H|exact Hp].
  rewrite filter_map, map_map. reflexivity.
Qed.
Lemma fold_left_ext {X Y} (f g : X -> Y -> X) l a : (forall x y, f x y = g x y) -> fold_left f l a = fold_left g l a.
Proof. intros H. revert a. induction l as [|y l IH]; intros a; [reflexivity|]. cbn [fold_left]. rewrite H. apply IH. Qed.
Lemma nth_scatter_add {X} (i : X -> Z) (v : X -> R) l xs p :
  (forall x, In x l -> (0 <= i x)%Z) -> p < length xs ->
  nth p (scatter nadd xs (map i l) (map v l)) 0%R
  = (nth p xs 0 + rsum (map v (filter (fun x => (i x =? Z.of_nat p)%Z) l)))%R.
Proof. intros H Hp. rewrite nth_scatter_map by assumption. apply fold_left_Rplus. Qed.
Lemma nth_scatter_max {X} (i : X -> Z) (v : X -> R) l xs p :
  (forall x, In x l -> (0 <= i x)%Z) -> p < length xs ->
  nth p (scatter nmax xs (map i l) (map v l)) 0%R
  = rmax (nth p xs 0%R) (map v (filter (fun x => (i x =? Z.of_nat p)%Z) l)).
Proof.
  intros H Hp. rewrite nth_scatter_map by assumption. rewrite <- fold_left_Rmax. apply fold_left_ext. apply nmax_R.
Qed.

(** ** Filters of nested lists *)
Lemma filter_flat_map {X Y} (p : Y -> bool) (g : X -> list Y) l : filter p (flat_map g l) = flat_map (fun x => filter p (g x)) l.
Proof. induction l as [|x l IH]; [reflexivity|]. cbn [flat_map]. now rewrite filter_app, IH. Qed.
Lemma flat_map_nil {X Y} (g : X -> list Y) l : (forall x, In x l -> g x = []) -> flat_map g l = [].
Proof. induction l as [|x l IH]; intros H; [reflexivity|]. cbn [flat_map]. rewrite H by now left. apply IH. intros y Hy. apply H. now right. Qed.
Lemma flat_map_only {Y} (g : nat -> list Y) n i : i < n -> (forall j, j < n -> j <> i -> g j = []) -> flat_map g (seq 0 n) = g i.
Proof.
  intros Hi H. replace n with (i + (1 + (n - S i))) by lia. rewrite !seq_app, !flat_map_app. cbn [seq flat_map].
  rewrite flat_map_nil, flat_map_nil, !app_nil_r; [reflexivity| |].
  - intros j Hj. apply in_seq in Hj. apply H; lia.
  - intros j Hj. apply in_seq in Hj. apply H; lia.
Qed.
Lemma flat_map_if {X Y} (p : X -> bool) (h : X -> Y) l : flat_map (fun x => if p x then [h x] else []) l = map h (filter p l).
Proof. induction l as [|x l IH]; [reflexivity|]. cbn [flat_map filter]. rewrite IH. now destruct (p x). Qed.
Lemma flat_map_ext_in {X Y} (f g : X -> list Y) l : (forall x, In x l -> f x = g x) -> flat_map f l = flat_map g l.
Proof. induction l as [|x l IH]; intros H; [reflexivity|]. cbn [flat_map]. rewrite H by now left. f_equal. apply IH. intros; apply H; now right. Qed.
Lemma filter_none {X} (p : X -> bool) l : (forall x, In x l -> p x = false) -> filter p l = [].
Proof. induction l as [|x l IH]; intros H; [reflexivity|]. cbn [filter]. rewrite H by now left. apply IH. intros; apply H; now right. Qed.
Lemma filter_seq_eq n s : s < n -> filter (fun x => x =? s) (seq 0 n) = [s].
Proof.
  intros H. replace n with (s + (1 + (n - S s))) by lia. rewrite !seq_app, !filter_app. cbn [seq filter Nat.add].
  rewrite Nat.eqb_refl, !filter_none; [reflexivity| |]; intros x Hx; apply in_seq in Hx; apply Nat.eqb_neq; lia.
Qed.
Lemma nth_repeat_R n p : nth p (repeat 0%R n) 0%R = 0%R.
Proof. revert p. induction n as [|n IH]; intros [|p]; cbn; auto. Qed.
