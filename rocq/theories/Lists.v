(** * Lemmas about the array primitives of [NumPy]. No model code here. *)
From Verif Require Import NumPy.
From Coq Require Import Lia Permutation.
Local Open Scope nat_scope.

(** ** Loops *)
Lemma fold_left_seq_ind {S} (P : nat -> S -> Prop) (body : nat -> S -> S) a n s :
  P a s -> (forall i s, a <= i < a + n -> P i s -> P (Datatypes.S i) (body i s)) ->
  P (a + n) (fold_left (fun s i => body i s) (seq a n) s).
Proof.
  revert a s; induction n as [|n IH]; intros a s H0 Hs; simpl.
  - now rewrite Nat.add_0_r.
  - rewrite <- Nat.add_succ_comm. apply IH.
    + apply Hs; [lia | exact H0].
    + intros i s' Hi. apply Hs. lia.
Qed.

Lemma for_range_ind {S} (P : nat -> S -> Prop) (body : nat -> S -> S) n s :
  P 0 s -> (forall i s, i < n -> P i s -> P (Datatypes.S i) (body i s)) ->
  P n (for_range n body s).
Proof.
  intros H0 Hs. unfold for_range.
  apply (fold_left_seq_ind P body 0 n s H0). intros i s' Hi. apply Hs. lia.
Qed.

Lemma for_range_S {S} (body : nat -> S -> S) n s :
  for_range (Datatypes.S n) body s = body n (for_range n body s).
Proof. unfold for_range. rewrite seq_S, fold_left_app. reflexivity. Qed.

Lemma for_range_0 {S} (body : nat -> S -> S) s : for_range 0 body s = s.
Proof. reflexivity. Qed.

(** ** Monadic maps *)
Lemma mapM_Ok {A B} (f : A -> res B) l ys :
  mapM f l = Ok ys <-> Forall2 (fun x y => f x = Ok y) l ys.
Proof.
  revert ys; induction l as [|x r IH]; intros ys; simpl.
  - split; intros H; [injection H as <-; constructor | inversion H; reflexivity].
  - destruct (f x) as [y|e] eqn:Hx; simpl.
    + destruct (mapM f r) as [ys'|e] eqn:Hr; simpl.
      * split; intros H.
        -- injection H as <-. constructor; [exact Hx|]. now apply IH.
        -- inversion H as [|? y0 ? ys0 H1 H2]; subst. rewrite Hx in H1. injection H1 as <-.
           apply IH in H2. now injection H2 as <-.
      * split; intros H; [discriminate|].
        inversion H as [|? y0 ? ys0 H1 H2]; subst. apply IH in H2. discriminate.
    + split; intros H; [discriminate|].
      inversion H as [|? y0 ? ys0 H1 H2]; subst. congruence.
Qed.

Lemma Forall2_len {A B} (R : A -> B -> Prop) l l' : Forall2 R l l' -> length l = length l'.
Proof. induction 1; simpl; congruence. Qed.

Lemma mapM_length {A B} (f : A -> res B) l ys : mapM f l = Ok ys -> length ys = length l.
Proof. intros H. apply mapM_Ok in H. symmetry. eapply Forall2_len; eassumption. Qed.

Lemma mapM_all {A B} (f : A -> res B) (g : A -> B) l :
  (forall x, In x l -> f x = Ok (g x)) -> mapM f l = Ok (map g l).
Proof.
  induction l as [|x r IH]; intros H; simpl; [reflexivity|].
  rewrite H by (now left). simpl. rewrite IH by (intros; apply H; now right). reflexivity.
Qed.

Lemma mapM_nth {A B} (f : A -> res B) l ys i dx dy :
  mapM f l = Ok ys -> i < length l -> f (nth i l dx) = Ok (nth i ys dy).
Proof.
  intros H. apply mapM_Ok in H. revert i. induction H as [|x y l ys Hxy H IH]; simpl; intros i Hi.
  - lia.
  - destruct i; [exact Hxy|]. apply IH. lia.
Qed.

Lemma mapM_ext {A B} (f g : A -> res B) l :
  (forall x, In x l -> f x = g x) -> mapM f l = mapM g l.
Proof.
  induction l as [|x r IH]; intros H; simpl; [reflexivity|].
  rewrite H by (now left). rewrite IH by (intros; apply H; now right). reflexivity.
Qed.

Lemma mapM_app {A B} (f : A -> res B) l1 l2 :
  mapM f (l1 ++ l2) = (x <- mapM f l1 ;; y <- mapM f l2 ;; Ok (x ++ y)).
Proof.
  induction l1 as [|x r IH]; simpl.
  - destruct (mapM f l2); reflexivity.
  - destruct (f x); simpl; [|reflexivity]. rewrite IH.
    destruct (mapM f r); simpl; [|reflexivity]. destruct (mapM f l2); reflexivity.
Qed.

Lemma mapM_raise {A B} (f : A -> res B) l e :
  mapM f l = Raise e -> exists x, In x l /\ f x = Raise e.
Proof.
  induction l as [|x r IH]; simpl; [discriminate|].
  destruct (f x) as [y|e'] eqn:Hx; simpl.
  - destruct (mapM f r) as [ys|e'']; simpl; [discriminate|].
    intros H. destruct IH as [x' [H1 H2]]; [congruence|]. exists x'. auto.
  - intros H. exists x. split; [now left | congruence].
Qed.

Lemma foldM_app {S A} (f : S -> A -> res S) l1 l2 s :
  foldM f (l1 ++ l2) s = (s' <- foldM f l1 s ;; foldM f l2 s').
Proof.
  revert s; induction l1 as [|x r IH]; intros s; simpl; [reflexivity|].
  destruct (f s x); simpl; [apply IH | reflexivity].
Qed.

(** ** [upd] *)
Lemma upd_length {A} i (f : A -> A) xs : length (upd i f xs) = length xs.
Proof. revert i; induction xs as [|x r IH]; intros [|i]; simpl; congruence. Qed.

Lemma nth_upd_eq {A} i (f : A -> A) xs d :
  i < length xs -> nth i (upd i f xs) d = f (nth i xs d).
Proof.
  revert i; induction xs as [|x r IH]; intros [|i] H; simpl in *; try lia; [reflexivity|].
  apply IH. lia.
Qed.

Lemma nth_upd_neq {A} i j (f : A -> A) xs d : i <> j -> nth j (upd i f xs) d = nth j xs d.
Proof.
  revert i j; induction xs as [|x r IH]; intros [|i] [|j] H; simpl; try reflexivity; try lia.
  apply IH. lia.
Qed.

Lemma nth_upd {A} i j (f : A -> A) xs d :
  i < length xs ->
  nth j (upd i f xs) d = if j =? i then f (nth i xs d) else nth j xs d.
Proof.
  intros H. destruct (Nat.eqb_spec j i) as [->|Hn].
  - now apply nth_upd_eq.
  - apply nth_upd_neq. lia.
Qed.

Lemma upd_out {A} i (f : A -> A) xs : length xs <= i -> upd i f xs = xs.
Proof.
  revert i; induction xs as [|x r IH]; intros [|i] H; simpl in *; try reflexivity; try lia.
  rewrite IH by lia. reflexivity.
Qed.

Lemma upd_comm {A} i j (f g : A -> A) xs :
  i <> j -> upd i f (upd j g xs) = upd j g (upd i f xs).
Proof.
  revert i j; induction xs as [|x r IH]; intros [|i] [|j] H; simpl; try reflexivity; try lia.
  rewrite IH by lia. reflexivity.
Qed.

Lemma nth_error_upd_eq {A} i (f : A -> A) xs :
  nth_error (upd i f xs) i = option_map f (nth_error xs i).
Proof. revert i; induction xs as [|x r IH]; intros [|i]; simpl; auto. Qed.

Lemma nth_error_upd_neq {A} i j (f : A -> A) xs :
  i <> j -> nth_error (upd i f xs) j = nth_error xs j.
Proof.
  revert i j; induction xs as [|x r IH]; intros [|i] [|j] H; simpl; try reflexivity; try lia.
  apply IH. lia.
Qed.

(** ** Slices and slice assignment *)
Lemma slice_length {A} (xs : list A) a b :
  length (slice xs a b) = Nat.min (b - a) (length xs - a).
Proof. unfold slice. rewrite firstn_length, skipn_length. reflexivity. Qed.

Lemma nth_skipn {A} n (xs : list A) i d : nth i (skipn n xs) d = nth (n + i) xs d.
Proof.
  revert xs; induction n as [|n IH]; intros [|x r]; simpl; try reflexivity.
  - destruct i; reflexivity.
  - apply IH.
Qed.

Lemma nth_firstn {A} n (xs : list A) i d : i < n -> nth i (firstn n xs) d = nth i xs d.
Proof.
  revert xs i; induction n as [|n IH]; intros [|x r] i H; simpl; try lia; try reflexivity.
  destruct i; [reflexivity|]. apply IH. lia.
Qed.

Lemma nth_slice {A} (xs : list A) a b i d :
  i < b - a -> nth i (slice xs a b) d = nth (a + i) xs d.
Proof. intros H. unfold slice. rewrite nth_firstn by lia. apply nth_skipn. Qed.

Lemma slice_all {A} (xs : list A) : slice xs 0 (length xs) = xs.
Proof. unfold slice. simpl. rewrite Nat.sub_0_r. apply firstn_all. Qed.

Lemma blit_length {A} a (vs xs : list A) : length (blit a vs xs) = length xs.
Proof.
  revert a xs; induction vs as [|v r IH]; intros a xs; simpl; [reflexivity|].
  rewrite IH. apply upd_length.
Qed.

Lemma nth_blit_out {A} a (vs xs : list A) j d :
  j < a \/ a + length vs <= j -> nth j (blit a vs xs) d = nth j xs d.
Proof.
  revert a xs; induction vs as [|v r IH]; intros a xs H; simpl in *; [reflexivity|].
  rewrite IH by lia. apply nth_upd_neq. lia.
Qed.

Lemma nth_blit_in {A} a (vs xs : list A) j d :
  a <= j < a + length vs -> j < length xs -> nth j (blit a vs xs) d = nth (j - a) vs d.
Proof.
  revert a xs; induction vs as [|v r IH]; intros a xs H Hj; simpl in *; [lia|].
  destruct (Nat.eq_dec j a) as [->|Hn].
  - rewrite Nat.sub_diag. rewrite nth_blit_out by lia. now rewrite nth_upd_eq by lia.
  - rewrite IH; [|lia|now rewrite upd_length].
    replace (j - a) with (S (j - S a)) by lia. reflexivity.
Qed.

Lemma blit_app {A} a (vs xs : list A) :
  a + length vs <= length xs ->
  blit a vs xs = firstn a xs ++ vs ++ skipn (a + length vs) xs.
Proof.
  intros H. destruct vs as [|v0 vs'] eqn:Hvs.
  - simpl. rewrite Nat.add_0_r. symmetry. apply firstn_skipn.
  - rewrite <- Hvs in *. apply (nth_ext _ _ v0 v0).
    + rewrite blit_length, !app_length, firstn_length, skipn_length. lia.
    + intros j Hj. rewrite blit_length in Hj.
      destruct (Nat.lt_ge_cases j a) as [Hlt|Hge].
      * rewrite nth_blit_out by lia. rewrite app_nth1 by (rewrite firstn_length; lia).
        now rewrite nth_firstn by lia.
      * rewrite app_nth2 by (rewrite firstn_length; lia).
        rewrite firstn_length, Nat.min_l by lia.
        destruct (Nat.lt_ge_cases j (a + length vs)) as [Hlt2|Hge2].
        -- rewrite nth_blit_in by lia. now rewrite app_nth1 by lia.
        -- rewrite nth_blit_out by lia. rewrite app_nth2 by lia.
           rewrite nth_skipn. f_equal. lia.
Qed.

(** A slice of an array after a write: inside or outside the write. *)
Lemma slice_blit_same {A} a (vs xs : list A) :
  a + length vs <= length xs -> slice (blit a vs xs) a (a + length vs) = vs.
Proof.
  intros H. destruct vs as [|v0 r] eqn:Hvs.
  - unfold slice. now replace (a + length (@nil A) - a) with 0 by (simpl; lia).
  - rewrite <- Hvs in *. apply (nth_ext _ _ v0 v0).
    + rewrite slice_length, blit_length. lia.
    + intros i Hi. rewrite slice_length, blit_length in Hi.
      rewrite nth_slice by lia. rewrite nth_blit_in by lia. f_equal. lia.
Qed.

Lemma slice_blit_disjoint {A} a (vs xs : list A) b c :
  c <= a \/ a + length vs <= b -> slice (blit a vs xs) b c = slice xs b c.
Proof.
  intros H. destruct xs as [|x0 xs'] eqn:Hxs.
  - assert (Hb : blit a vs (@nil A) = []).
    { pose proof (blit_length a vs (@nil A)) as Hl. destruct (blit a vs []); [reflexivity|].
      simpl in Hl. lia. }
    now rewrite Hb.
  - rewrite <- Hxs in *. apply (nth_ext _ _ x0 x0).
    + now rewrite !slice_length, blit_length.
    + intros i Hi. rewrite slice_length, blit_length in Hi.
      rewrite !nth_slice by lia. apply nth_blit_out. lia.
Qed.

Lemma blit_comm {A} a b (us vs xs : list A) :
  a + length us <= b \/ b + length vs <= a ->
  blit a us (blit b vs xs) = blit b vs (blit a us xs).
Proof.
  intros H. destruct xs as [|x0 xs'] eqn:Hxs.
  - assert (Hnil : forall c (ws : list A), blit c ws [] = []).
    { intros c ws. pose proof (blit_length c ws (@nil A)) as Hl.
      destruct (blit c ws []); [reflexivity|]. simpl in Hl. lia. }
    now rewrite !Hnil.
  - rewrite <- Hxs in *. apply (nth_ext _ _ x0 x0).
    + now rewrite !blit_length.
    + intros j Hj. rewrite !blit_length in Hj.
      assert (Ha : (a <= j < a + length us) \/ (j < a \/ a + length us <= j)) by lia.
      assert (Hb : (b <= j < b + length vs) \/ (j < b \/ b + length vs <= j)) by lia.
      destruct Ha as [Ha|Ha].
      * rewrite nth_blit_in by (rewrite ?blit_length; lia).
        rewrite nth_blit_out by lia. now rewrite nth_blit_in by lia.
      * rewrite nth_blit_out by lia. destruct Hb as [Hb|Hb].
        -- rewrite nth_blit_in by lia. now rewrite nth_blit_in by (rewrite ?blit_length; lia).
        -- rewrite nth_blit_out by lia. rewrite nth_blit_out by lia.
           now rewrite nth_blit_out by lia.
Qed.

(** ** Elementwise operations *)
Lemma map2_length {A B C} (f : A -> B -> C) xs ys :
  length (map2 f xs ys) = Nat.min (length xs) (length ys).
Proof. revert ys; induction xs as [|x r IH]; intros [|y s]; simpl; auto. Qed.

Lemma nth_map2 {A B C} (f : A -> B -> C) xs ys i d dx dy :
  i < length xs -> i < length ys ->
  nth i (map2 f xs ys) d = f (nth i xs dx) (nth i ys dy).
Proof.
  revert ys i; induction xs as [|x r IH]; intros [|y s] [|i] H1 H2; simpl in *; try lia;
    [reflexivity|]. apply IH; lia.
Qed.

Lemma map2_app {A B C} (f : A -> B -> C) xs1 xs2 ys1 ys2 :
  length xs1 = length ys1 -> map2 f (xs1 ++ xs2) (ys1 ++ ys2) = map2 f xs1 ys1 ++ map2 f xs2 ys2.
Proof.
  revert ys1; induction xs1 as [|x r IH]; intros [|y s] H; simpl in *; try lia; [reflexivity|].
  f_equal. apply IH. lia.
Qed.

Lemma map2_ext {A B C} (f g : A -> B -> C) xs ys :
  (forall x y, In x xs -> In y ys -> f x y = g x y) -> map2 f xs ys = map2 g xs ys.
Proof.
  revert ys; induction xs as [|x r IH]; intros [|y s] H; simpl; try reflexivity.
  rewrite H by (now left). f_equal. apply IH. intros; apply H; now right.
Qed.

Lemma map2_combine {A B C} (f : A -> B -> C) xs ys :
  map2 f xs ys = map (fun p => f (fst p) (snd p)) (combine xs ys).
Proof. revert ys; induction xs as [|x r IH]; intros [|y s]; simpl; try reflexivity. now rewrite IH. Qed.

Lemma nth_map {A B} (f : A -> B) xs i d d' : i < length xs -> nth i (map f xs) d = f (nth i xs d').
Proof.
  revert i; induction xs as [|x r IH]; intros [|i] H; simpl in *; try lia; [reflexivity|].
  apply IH. lia.
Qed.

Lemma nth_map_seq {B} (f : nat -> B) a n i d : i < n -> nth i (map f (seq a n)) d = f (a + i).
Proof.
  intros H. rewrite (nth_map _ _ _ _ 0) by (rewrite seq_length; lia). now rewrite seq_nth by lia.
Qed.

Lemma nth_repeat_lt {A} (x : A) n i d : i < n -> nth i (repeat x n) d = x.
Proof. revert i; induction n as [|n IH]; intros [|i] H; simpl; try lia; [reflexivity|]. apply IH. lia. Qed.

Lemma combine_nth_lt {A B} (xs : list A) (ys : list B) i dx dy :
  i < length xs -> i < length ys -> nth i (combine xs ys) (dx, dy) = (nth i xs dx, nth i ys dy).
Proof.
  revert ys i; induction xs as [|x r IH]; intros [|y s] [|i] H1 H2; simpl in *; try lia; [reflexivity|].
  apply IH; lia.
Qed.

Lemma list_ext_seq {A} (xs : list A) d : xs = map (fun i => nth i xs d) (seq 0 (length xs)).
Proof.
  apply (nth_ext _ _ d d); [now rewrite map_length, seq_length|].
  intros i Hi. now rewrite nth_map_seq by lia.
Qed.

Lemma In_nth_iff {A} (x : A) xs d : In x xs <-> exists i, i < length xs /\ nth i xs d = x.
Proof.
  split.
  - intros H. destruct (In_nth xs x d H) as [i [H1 H2]]. now exists i.
  - intros [i [H1 <-]]. now apply nth_In.
Qed.

(** ** Prefix sums *)
(** Sum of the first [i] entries: the start of the [i]-th block. *)
Definition off (l : list nat) (i : nat) : nat := list_sum (firstn i l).

Lemma off_0 l : off l 0 = 0.
Proof. reflexivity. Qed.

Lemma off_S l i : i < length l -> off l (S i) = off l i + nth i l 0.
Proof.
  unfold off. revert i; induction l as [|x r IH]; intros [|i] H; simpl in *; try lia.
  rewrite IH by lia. lia.
Qed.

Lemma off_all l i : length l <= i -> off l i = list_sum l.
Proof. intros H. unfold off. now rewrite firstn_all2. Qed.

Lemma off_cons x l i : off (x :: l) (S i) = x + off l i.
Proof. reflexivity. Qed.

Lemma off_le_mono l i j : i <= j -> off l i <= off l j.
Proof.
  unfold off. revert i j; induction l as [|x r IH]; intros [|i] [|j] H; simpl; try lia.
  assert (i <= j) as H' by lia. specialize (IH i j H'). lia.
Qed.

Lemma off_le_sum l i : off l i <= list_sum l.
Proof.
  unfold off. revert i; induction l as [|x r IH]; intros [|i]; simpl; try lia.
  specialize (IH i). lia.
Qed.

Lemma off_app1 l1 l2 i : i <= length l1 -> off (l1 ++ l2) i = off l1 i.
Proof.
  intros H. unfold off. rewrite firstn_app. replace (i - length l1) with 0 by lia.
  simpl. now rewrite app_nil_r.
Qed.

Lemma off_app2 l1 l2 i : off (l1 ++ l2) (length l1 + i) = list_sum l1 + off l2 i.
Proof.
  unfold off. rewrite firstn_app_2. now rewrite list_sum_app.
Qed.

Lemma off_block_lt l i j : i < length l -> j < nth i l 0 -> off l i + j < list_sum l.
Proof.
  intros Hi Hj. pose proof (off_S l i Hi) as H. pose proof (off_le_sum l (S i)). lia.
Qed.

(** Every flat position lies in exactly one block. *)
Lemma off_split l p : p < list_sum l -> exists i j, i < length l /\ j < nth i l 0 /\ p = off l i + j.
Proof.
  revert p; induction l as [|x r IH]; intros p H; simpl in *; [lia|].
  destruct (Nat.lt_ge_cases p x) as [Hlt|Hge].
  - exists 0, p. rewrite off_0. lia.
  - destruct (IH (p - x)) as [i [j [H1 [H2 H3]]]]; [lia|].
    exists (S i), j. rewrite off_cons. simpl. lia.
Qed.

Lemma off_inj l i j i' j' :
  i < length l -> i' < length l -> j < nth i l 0 -> j' < nth i' l 0 ->
  off l i + j = off l i' + j' -> i = i' /\ j = j'.
Proof.
  intros Hi Hi' Hj Hj' H.
  destruct (Nat.lt_trichotomy i i') as [Hlt|[->|Hlt]].
  - pose proof (off_S l i Hi). pose proof (off_le_mono l (S i) i' Hlt). lia.
  - lia.
  - pose proof (off_S l i' Hi'). pose proof (off_le_mono l (S i') i Hlt). lia.
Qed.

Lemma cumsum_from_length a l : length (cumsum_from a l) = length l.
Proof. revert a; induction l; simpl; auto. Qed.

Lemma nth_cumsum_from a l i : i < length l -> nth i (cumsum_from a l) 0 = a + off l (S i).
Proof.
  revert a i; induction l as [|x r IH]; intros a [|i] H; simpl in *; try lia.
  - unfold off. simpl. lia.
  - rewrite IH by lia. unfold off. simpl. lia.
Qed.

Lemma cumsum0_length l : length (cumsum0 l) = S (length l).
Proof. unfold cumsum0, cumsum. simpl. now rewrite cumsum_from_length. Qed.

Lemma nth_cumsum0 l i : i <= length l -> nth i (cumsum0 l) 0 = off l i.
Proof.
  intros H. unfold cumsum0, cumsum. destruct i; [reflexivity|]. simpl nth.
  rewrite nth_cumsum_from by lia. reflexivity.
Qed.

Lemma last_nth {A} (l : list A) d : last l d = nth (length l - 1) l d.
Proof.
  induction l as [|x r IH]; [reflexivity|]. destruct r as [|y s]; [reflexivity|].
  change (last (x :: y :: s) d) with (last (y :: s) d). rewrite IH. simpl. now rewrite Nat.sub_0_r.
Qed.

Lemma removelast_firstn_len {A} (l : list A) : removelast l = firstn (length l - 1) l.
Proof.
  induction l as [|x r IH]; [reflexivity|]. destruct r as [|y s]; [reflexivity|].
  change (removelast (x :: y :: s)) with (x :: removelast (y :: s)). rewrite IH.
  simpl. now rewrite Nat.sub_0_r.
Qed.

Lemma last_cumsum0 l : last (cumsum0 l) 0 = list_sum l.
Proof.
  rewrite last_nth, cumsum0_length. simpl Nat.sub. rewrite Nat.sub_0_r.
  rewrite nth_cumsum0 by lia. apply off_all. lia.
Qed.

Lemma starts_length l : length (starts l) = length l.
Proof.
  unfold starts. rewrite removelast_firstn_len, firstn_length, cumsum0_length. lia.
Qed.

Lemma nth_starts l i : i < length l -> nth i (starts l) 0 = off l i.
Proof.
  intros H. unfold starts. rewrite removelast_firstn_len, nth_firstn by (rewrite cumsum0_length; lia).
  apply nth_cumsum0. lia.
Qed.

Lemma starts_off l : starts l = map (off l) (seq 0 (length l)).
Proof.
  apply (nth_ext _ _ 0 0); [now rewrite starts_length, map_length, seq_length|].
  intros i Hi. rewrite starts_length in Hi. rewrite nth_starts by lia. now rewrite nth_map_seq by lia.
Qed.

(** ** Concatenation of blocks *)
Lemma concat_length {A} (ls : list (list A)) : length (concat ls) = list_sum (map (@length A) ls).
Proof. induction ls as [|l r IH]; simpl; [reflexivity|]. now rewrite app_length, IH. Qed.

Lemma nth_concat {A} (ls : list (list A)) i j d :
  i < length ls -> j < length (nth i ls []) ->
  nth (off (map (@length A) ls) i + j) (concat ls) d = nth j (nth i ls []) d.
Proof.
  revert i; induction ls as [|l r IH]; intros [|i] Hi Hj; simpl in *; try lia.
  - now rewrite app_nth1 by lia.
  - rewrite off_cons. rewrite app_nth2 by lia.
    replace (length l + off (map (@length A) r) i + j - length l)
      with (off (map (@length A) r) i + j) by lia.
    apply IH; lia.
Qed.

Lemma nth_concat_uniform {A} (ls : list (list A)) m i j d :
  (forall l, In l ls -> length l = m) -> i < length ls -> j < m ->
  nth (i * m + j) (concat ls) d = nth j (nth i ls []) d.
Proof.
  revert i; induction ls as [|l r IH]; intros [|i] H Hi Hj; simpl in *; try lia.
  - rewrite app_nth1 by (rewrite (H l); auto). reflexivity.
  - rewrite app_nth2 by (rewrite (H l) by auto; lia). rewrite (H l) by auto.
    replace (m + i * m + j - m) with (i * m + j) by lia. apply IH; auto; lia.
Qed.

Lemma concat_length_uniform {A} (ls : list (list A)) m :
  (forall l, In l ls -> length l = m) -> length (concat ls) = length ls * m.
Proof.
  induction ls as [|l r IH]; intros H; simpl; [reflexivity|].
  rewrite app_length, IH by (intros; apply H; now right). now rewrite (H l) by now left.
Qed.

Lemma flat_map_length_uniform {A B} (f : A -> list B) xs m :
  (forall x, In x xs -> length (f x) = m) -> length (flat_map f xs) = length xs * m.
Proof.
  intros H. rewrite flat_map_concat_map. rewrite (concat_length_uniform _ m).
  - now rewrite map_length.
  - intros l Hl. apply in_map_iff in Hl. destruct Hl as [x [<- Hx]]. now apply H.
Qed.

Lemma nth_flat_map_uniform {A B} (f : A -> list B) xs m i j d dx :
  (forall x, In x xs -> length (f x) = m) -> i < length xs -> j < m ->
  nth (i * m + j) (flat_map f xs) d = nth j (f (nth i xs dx)) d.
Proof.
  intros H Hi Hj. rewrite flat_map_concat_map. rewrite (nth_concat_uniform _ m).
  - now rewrite (nth_map _ _ _ _ dx) by lia.
  - intros l Hl. apply in_map_iff in Hl. destruct Hl as [x [<- Hx]]. now apply H.
  - rewrite map_length. lia.
  - lia.
Qed.

Lemma list_sum_repeat x n : list_sum (repeat x n) = n * x.
Proof. induction n; simpl; lia. Qed.

Lemma tile_length {A} (xs : list A) n : length (tile xs n) = n * length xs.
Proof.
  unfold tile. rewrite (concat_length_uniform _ (length xs)).
  - now rewrite repeat_length.
  - intros l Hl. now apply repeat_spec in Hl as ->.
Qed.

Lemma nth_tile {A} (xs : list A) n i j d :
  i < n -> j < length xs -> nth (i * length xs + j) (tile xs n) d = nth j xs d.
Proof.
  intros Hi Hj. unfold tile. rewrite (nth_concat_uniform _ (length xs)).
  - now rewrite nth_repeat_lt by lia.
  - intros l Hl. now apply repeat_spec in Hl as ->.
  - rewrite repeat_length. lia.
  - lia.
Qed.

(** Position / remainder decomposition for uniform blocks. *)
Lemma div_mod_lt n m p : p < n * m -> p / m < n /\ p mod m < m /\ p = p / m * m + p mod m.
Proof.
  intros H. assert (m <> 0) as Hm by (destruct m; lia).
  pose proof (Nat.div_mod p m Hm). pose proof (Nat.mod_upper_bound p m Hm).
  split; [|lia]. apply Nat.div_lt_upper_bound; lia.
Qed.

Lemma rows_length {A} n m (xs : list A) : length (rows n m xs) = n.
Proof. revert xs; induction n; intros xs; simpl; auto. Qed.

Lemma skipn_skipn' {A} a b (xs : list A) : skipn a (skipn b xs) = skipn (b + a) xs.
Proof.
  revert xs; induction b as [|b IH]; intros xs; simpl; [reflexivity|].
  destruct xs; [now rewrite skipn_nil | apply IH].
Qed.

Lemma nth_rows {A} n m (xs : list A) i : i < n -> nth i (rows n m xs) [] = slice xs (i * m) (i * m + m).
Proof.
  revert xs i; induction n as [|n IH]; intros xs [|i] H; simpl; try lia.
  - unfold slice. simpl. now rewrite Nat.sub_0_r.
  - rewrite IH by lia. unfold slice. rewrite skipn_skipn'.
    replace (i * m + m - i * m) with m by lia.
    replace (m + i * m + m - (m + i * m)) with m by lia. reflexivity.
Qed.

Lemma concat_rows {A} n m (xs : list A) : length xs = n * m -> concat (rows n m xs) = xs.
Proof.
  revert xs; induction n as [|n IH]; intros xs H; simpl in *.
  - destruct xs; [reflexivity|simpl in H; lia].
  - rewrite IH by (rewrite skipn_length; lia). apply firstn_skipn.
Qed.

(** ** Dictionaries *)
Section Dict.
  Context {K V : Type} (eqb : K -> K -> bool).
  Hypothesis eqb_sym : forall x y, eqb x y = eqb y x.
  Hypothesis eqb_trans : forall x y z, eqb x y = true -> eqb y z = true -> eqb x z = true.
  Hypothesis eqb_refl : forall x, eqb x x = true.

  Lemma eqb_cong x y z : eqb x y = true -> eqb x z = eqb y z.
  Proof.
    intros H. destruct (eqb x z) eqn:E1, (eqb y z) eqn:E2; try reflexivity.
    - rewrite (eqb_trans y x z) in E2; [discriminate| now rewrite eqb_sym | exact E1].
    - rewrite (eqb_trans x y z) in E1; [discriminate| exact H | exact E2].
  Qed.

  Lemma dget_dset_eq k k' (v : V) d : eqb k' k = true -> dget eqb k' (dset eqb k v d) = Some v.
  Proof.
    intros Hk. induction d as [|[k0 v0] r IH]; simpl.
    - now rewrite Hk.
    - destruct (eqb k k0) eqn:E; simpl.
      + now rewrite (eqb_trans k' k k0).
      + rewrite (eqb_cong k' k k0 Hk), E. exact IH.
  Qed.

  Lemma dget_dset_neq k k' (v : V) d :
    eqb k' k = false -> dget eqb k' (dset eqb k v d) = dget eqb k' d.
  Proof.
    intros Hk. induction d as [|[k0 v0] r IH]; simpl.
    - now rewrite Hk.
    - destruct (eqb k k0) eqn:E; simpl.
      + destruct (eqb k' k0) eqn:E2; [|reflexivity].
        rewrite eqb_sym in E. rewrite (eqb_trans k' k0 k) in Hk; auto; discriminate.
      + destruct (eqb k' k0); auto.
  Qed.

  Lemma dset_length_new k (v : V) d : dget eqb k d = None -> dset eqb k v d = d ++ [(k, v)].
  Proof.
    induction d as [|[k0 v0] r IH]; simpl; [reflexivity|].
    destruct (eqb k k0); [discriminate|]. intros H. now rewrite IH.
  Qed.

  Lemma dget_app k d1 d2 :
    dget eqb k (d1 ++ d2) = match dget eqb k d1 with Some v => Some v | None => dget eqb k d2 end
    :> option V.
  Proof. induction d1 as [|[k0 v0] r IH]; simpl; [reflexivity|]. destruct (eqb k k0); auto. Qed.

  Lemma dget_In k d (v : V) : dget eqb k d = Some v -> exists k', In (k', v) d /\ eqb k k' = true.
  Proof.
    induction d as [|[k0 v0] r IH]; simpl; [discriminate|].
    destruct (eqb k k0) eqn:E.
    - intros H. injection H as ->. exists k0. auto.
    - intros H. destruct (IH H) as [k' [H1 H2]]. exists k'. auto.
  Qed.

  Lemma dget_None k d : dget eqb k d = @None V <-> forall k' v, In (k', v) d -> eqb k k' = false.
  Proof.
    induction d as [|[k0 v0] r IH]; simpl.
    - split; [intros _ k' v []|reflexivity].
    - destruct (eqb k k0) eqn:E.
      + split; [discriminate|]. intros H. specialize (H k0 v0 (or_introl eq_refl)). congruence.
      + rewrite IH. split; intros H k' v Hin.
        * destruct Hin as [Hin|Hin]; [congruence|]. eauto.
        * eauto.
  Qed.

  (** If all keys of [items] are new and pairwise different, updating appends. *)
  Lemma dupdate_new d items :
    (forall k v, In (k, v) items -> dget eqb k d = @None V) ->
    ForallOrdPairs (fun p q => eqb (fst p) (fst q) = false) items ->
    dupdate eqb d items = d ++ items.
  Proof.
    unfold dupdate. revert d; induction items as [|[k v] r IH]; intros d Hnew Hdist; simpl.
    - now rewrite app_nil_r.
    - rewrite dset_length_new by (apply (Hnew k v); now left). inversion Hdist as [|? ? H1 H2]; subst.
      rewrite IH.
      + now rewrite <- app_assoc.
      + intros k' v' Hin. rewrite dget_app, (Hnew k' v') by (now right). simpl.
        rewrite Forall_forall in H1. specialize (H1 _ Hin). simpl in H1.
        now rewrite eqb_sym, H1.
      + exact H2.
  Qed.
End Dict.

Lemma ForallOrdPairs_nth {A} (R : A -> A -> Prop) l d :
  ForallOrdPairs R l <->
  (forall i j, i < j -> j < length l -> R (nth i l d) (nth j l d)).
Proof.
  induction l as [|x r IH]; simpl.
  - split; [intros _ i j; lia | constructor].
  - split.
    + intros H i j Hij Hj. inversion H as [|? ? H1 H2]; subst. destruct j as [|j]; [lia|].
      destruct i as [|i].
      * rewrite Forall_forall in H1. apply H1. apply nth_In. lia.
      * apply IH; auto; lia.
    + intros H. constructor.
      * apply Forall_forall. intros y Hy. destruct (In_nth r y d Hy) as [j [Hj <-]].
        apply (H 0 (S j)); lia.
      * apply IH. intros i j Hij Hj. apply (H (S i) (S j)); lia.
Qed.

(** ** Masks *)
Lemma mask_get_app {A} m1 m2 (x1 x2 : list A) :
  length m1 = length x1 -> mask_get (m1 ++ m2) (x1 ++ x2) = mask_get m1 x1 ++ mask_get m2 x2.
Proof.
  revert x1; induction m1 as [|b m1 IH]; intros [|x x1] H; simpl in *; try lia; [reflexivity|].
  destruct b; simpl; rewrite IH by lia; reflexivity.
Qed.

Lemma mask_set_length {A} m (xs vs : list A) : length (mask_set m xs vs) = length xs.
Proof.
  revert xs vs; induction m as [|b m IH]; intros [|x xs] vs; simpl; try reflexivity.
  destruct b; [destruct vs|]; simpl; now rewrite IH.
Qed.

Lemma mask_set_app {A} m1 m2 (x1 x2 v1 v2 : list A) :
  length m1 = length x1 -> length v1 = count_occ Bool.bool_dec m1 true ->
  mask_set (m1 ++ m2) (x1 ++ x2) (v1 ++ v2) = mask_set m1 x1 v1 ++ mask_set m2 x2 v2.
Proof.
  revert x1 v1; induction m1 as [|b m1 IH]; intros [|x x1] v1 H Hv; simpl in *; try lia.
  - destruct v1; [reflexivity|simpl in Hv; lia].
  - destruct b; simpl in *.
    + destruct v1 as [|v v1]; simpl in *; [lia|]. f_equal. apply IH; lia.
    + f_equal. apply IH; lia.
Qed.

Lemma mask_get_set {A} m (xs vs : list A) :
  length m = length xs -> length vs = count_occ Bool.bool_dec m true ->
  mask_get m (mask_set m xs vs) = vs.
Proof.
  revert xs vs; induction m as [|b m IH]; intros [|x xs] vs H Hv; simpl in *; try lia.
  - destruct vs; [reflexivity|simpl in Hv; lia].
  - destruct b; simpl in *.
    + destruct vs as [|v vs]; simpl in *; [lia|]. f_equal. apply IH; lia.
    + apply IH; lia.
Qed.

Lemma mask_get_length {A} m (xs : list A) :
  length m = length xs -> length (mask_get m xs) = count_occ Bool.bool_dec m true.
Proof.
  revert xs; induction m as [|b m IH]; intros [|x xs] H; simpl in *; try lia.
  destruct b; simpl; rewrite IH; lia.
Qed.

(** Writing back what was read only changes the masked-out entries. *)
Lemma nth_mask_set_get {A} m (xs ys : list A) i d :
  length m = length xs -> length ys = length xs -> i < length xs ->
  nth i (mask_set m ys (mask_get m xs)) d = if nth i m false then nth i xs d else nth i ys d.
Proof.
  revert xs ys i; induction m as [|b m IH]; intros [|x xs] [|y ys] i H1 H2 Hi; simpl in *; try lia.
  destruct b; destruct i as [|i]; simpl; try reflexivity; apply IH; lia.
Qed.

(** ** Shapes *)
Lemma shape_eqb_eq s t : shape_eqb s t = true <-> s = t.
Proof. unfold shape_eqb. destruct (list_eq_dec _ s t); split; congruence. Qed.
Lemma shape_eqb_neq s t : shape_eqb s t = false <-> s <> t.
Proof. unfold shape_eqb. destruct (list_eq_dec _ s t); split; congruence. Qed.
Lemma shape_eqb_refl s : shape_eqb s s = true.
Proof. now apply shape_eqb_eq. Qed.

Lemma prod_app s t : prod (s ++ t) = prod s * prod t.
Proof. induction s as [|d s IH]; simpl; [lia|]. rewrite IH. lia. Qed.

Lemma nat_max_ge l x : In x l -> x <= nat_max l.
Proof.
  unfold nat_max. induction l as [|y r IH]; simpl; [tauto|]. intros [->|H]; [lia|].
  specialize (IH H). lia.
Qed.
Lemma nat_max_In l : l <> [] -> In (nat_max l) l.
Proof.
  unfold nat_max. induction l as [|y r IH]; [congruence|]. intros _. simpl.
  destruct (Nat.max_spec y (fold_right Nat.max 0 r)) as [[Hle ->]|[Hle ->]]; [|now left].
  destruct r as [|z s]; [simpl|right; apply IH; congruence].
  simpl in *. left. lia.
Qed.

Lemma combine_app_eq {A B} (a1 a2 : list A) (b1 b2 : list B) :
  length a1 = length b1 -> combine (a1 ++ a2) (b1 ++ b2) = combine a1 b1 ++ combine a2 b2.
Proof.
  revert b1; induction a1 as [|x a1 IH]; intros [|y b1] H; simpl in *; try discriminate; [reflexivity|].
  f_equal. apply IH. congruence.
Qed.
Lemma mapM_map_Ok {X Y W} (f : Y -> res W) (h : X -> Y) (g : X -> W) l :
  (forall x, In x l -> f (h x) = Ok (g x)) -> mapM f (map h l) = Ok (map g l).
Proof.
  induction l as [|x l IH]; intros H; simpl; [reflexivity|]. rewrite (H x) by now left. simpl.
  rewrite IH by (intros; apply H; now right). reflexivity.
Qed.

Lemma NoDup_app_disjoint {A} (a b : list A) : NoDup (a ++ b) -> forall x, In x a -> In x b -> False.
Proof.
  induction a as [|y a IH]; intros H x Ha Hb; [destruct Ha|]. simpl in H. inversion H as [|? ? H1 H2]; subst.
  destruct Ha as [<-|Ha]; [apply H1, in_or_app; now right|eauto].
Qed.
Lemma NoDup_app_remove_r {A} (a b : list A) : NoDup (a ++ b) -> NoDup a.
Proof.
  induction a as [|y a IH]; intros H; [constructor|]. simpl in H. inversion H as [|? ? H1 H2]; subst.
  constructor; [intros F; apply H1, in_or_app; now left|auto].
Qed.
Lemma NoDup_app_remove_l {A} (a b : list A) : NoDup (a ++ b) -> NoDup b.
Proof. induction a as [|y a IH]; intros H; [exact H|]. simpl in H. inversion H; auto. Qed.

(** Dictionaries keyed by integers. *)
Lemma Zeqb_sym' (x y : Z) : (x =? y)%Z = (y =? x)%Z. Proof. apply Z.eqb_sym. Qed.
Lemma Zeqb_trans' (x y z : Z) : (x =? y)%Z = true -> (y =? z)%Z = true -> (x =? z)%Z = true.
Proof. rewrite !Z.eqb_eq. congruence. Qed.
Lemma zget_dset_eq {V} k k' (v : V) d : k' = k -> dget Z.eqb k' (dset Z.eqb k v d) = Some v.
Proof.
  intros ->. induction d as [|[k0 v0] r IH]; simpl; [now rewrite Z.eqb_refl|].
  destruct (k =? k0)%Z eqn:E; simpl; rewrite E; [reflexivity|exact IH].
Qed.
Lemma zget_dset_neq {V} k k' (v : V) d : k' <> k -> dget Z.eqb k' (dset Z.eqb k v d) = dget Z.eqb k' d.
Proof.
  intros Hk. apply Z.eqb_neq in Hk. induction d as [|[k0 v0] r IH]; simpl; [now rewrite Hk|].
  destruct (k =? k0)%Z eqn:E; simpl.
  - apply Z.eqb_eq in E. subst k0. now rewrite Hk.
  - destruct (k' =? k0)%Z; auto.
Qed.
