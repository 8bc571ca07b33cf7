(** Lemmas about the vocabulary of [Base]. *)
From Verif Require Import Base.
Set Implicit Arguments.

Lemma obind_some {A B} (m : option A) (f : A -> option B) b :
  obind m f = Some b <-> exists a, m = Some a /\ f a = Some b.
Proof. destruct m; simpl; split; intros; [eauto| destruct H as (x&E&?); inversion E; subst; auto | discriminate | destruct H as (?&?&?); discriminate]. Qed.

Lemma get_some_lt {A} (l : list A) i x : get l i = Some x -> i < length l.
Proof. unfold get. intros H. apply nth_error_Some. congruence. Qed.

Lemma get_lt {A} (l : list A) i : i < length l -> exists x, get l i = Some x.
Proof. unfold get. intros H. apply nth_error_Some in H. destruct (nth_error l i); [eauto|congruence]. Qed.

Lemma get_none {A} (l : list A) i : length l <= i -> get l i = None.
Proof. apply nth_error_None. Qed.

Lemma lset_length {A} (l : list A) i x : length (lset l i x) = length l.
Proof. revert i; induction l; intros [|i]; simpl; auto. Qed.

Lemma get_lset_eq {A} (l : list A) i x : i < length l -> get (lset l i x) i = Some x.
Proof. unfold get. revert i; induction l; intros [|i]; simpl; intros; try lia; auto. apply IHl; lia. Qed.

Lemma get_lset_neq {A} (l : list A) i j x : i <> j -> get (lset l i x) j = get l j.
Proof. unfold get. revert i j; induction l; intros [|i] [|j]; simpl; intros; auto; try lia. Qed.

Lemma get_lset {A} (l : list A) i j x :
  get (lset l i x) j = if (i =? j) && (i <? length l) then Some x else get l j.
Proof.
  destruct (Nat.eqb_spec i j); simpl.
  - subst. destruct (Nat.ltb_spec j (length l)).
    + now apply get_lset_eq.
    + rewrite !get_none; auto. rewrite lset_length; auto.
  - now apply get_lset_neq.
Qed.

Lemma set_some {A} (l : list A) i x : i < length l -> set l i x = Some (lset l i x).
Proof. unfold set. destruct (Nat.ltb_spec i (length l)); auto; lia. Qed.

Lemma set_inv {A} (l l' : list A) i x : set l i x = Some l' -> i < length l /\ l' = lset l i x.
Proof. unfold set. destruct (Nat.ltb_spec i (length l)); intros E; inversion E; auto. Qed.

Lemma get_ext {A} (l l' : list A) : (forall i, get l i = get l' i) -> l = l'.
Proof.
  revert l'; induction l as [|x l IH]; intros [|y l'] H; auto.
  - specialize (H 0); discriminate.
  - specialize (H 0); discriminate.
  - f_equal. + specialize (H 0). cbn in H. congruence.
    + apply IH. intros i. exact (H (S i)).
Qed.

Lemma get_ext_len {A} (l l' : list A) :
  length l = length l' -> (forall i, i < length l -> get l i = get l' i) -> l = l'.
Proof.
  intros HL H. apply get_ext. intros i.
  destruct (Nat.lt_ge_cases i (length l)); auto.
  rewrite !get_none; auto; lia.
Qed.

Lemma get_app_l {A} (a b : list A) i : i < length a -> get (a ++ b) i = get a i.
Proof. apply nth_error_app1. Qed.
Lemma get_app_r {A} (a b : list A) i : length a <= i -> get (a ++ b) i = get b (i - length a).
Proof. apply nth_error_app2. Qed.

Lemma get_repeat {A} (x : A) n i : i < n -> get (repeat x n) i = Some x.
Proof. unfold get. revert i; induction n; intros [|i] H; simpl; auto; try lia. apply IHn; lia. Qed.

Lemma get_skipn {A} (l : list A) n i : get (skipn n l) i = get l (n + i).
Proof. unfold get. revert l; induction n; intros [|x l]; simpl; auto. now destruct i. Qed.

Lemma get_firstn {A} (l : list A) n i : i < n -> get (firstn n l) i = get l i.
Proof. unfold get. revert l i; induction n; intros [|x l] [|i] H; simpl; auto; try lia. apply IHn; lia. Qed.

Lemma get_map {A B} (f : A -> B) l i : get (map f l) i = option_map f (get l i).
Proof. unfold get. revert i; induction l; intros [|i]; simpl; auto. Qed.

Lemma get_seq s n i : i < n -> get (seq s n) i = Some (s + i).
Proof.
  unfold get. revert s i; induction n; intros s [|i] H; simpl; try lia; auto.
  rewrite IHn by lia. f_equal; lia.
Qed.

Lemma get_In {A} (l : list A) i x : get l i = Some x -> In x l.
Proof. apply nth_error_In. Qed.

Lemma In_get {A} (l : list A) x : In x l -> exists i, i < length l /\ get l i = Some x.
Proof. intros H. apply In_nth_error in H. destruct H as (i&H). exists i. split; auto. eapply get_some_lt; eauto. Qed.

Lemma slice_length {A} l r (xs : list A) : l <= r -> r <= length xs -> length (slice l r xs) = r - l.
Proof. intros. unfold slice. rewrite firstn_length, skipn_length. lia. Qed.

Lemma get_slice {A} l r (xs : list A) i : i < r - l -> get (slice l r xs) i = get xs (l + i).
Proof. intros. unfold slice. rewrite get_firstn, get_skipn; auto. Qed.

Lemma slice_nil {A} l r (xs : list A) : r <= l -> slice l r xs = [].
Proof. intros. unfold slice. replace (r - l) with 0 by lia. reflexivity. Qed.

Lemma skipn_get_cons {A} (l : list A) i x : get l i = Some x -> skipn i l = x :: skipn (S i) l.
Proof.
  unfold get. revert i; induction l; intros [|i]; simpl; intros H; try discriminate.
  - congruence. - apply IHl in H. rewrite H. reflexivity.
Qed.

Lemma slice_cons {A} l r (xs : list A) x :
  l < r -> get xs l = Some x -> slice l r xs = x :: slice (S l) r xs.
Proof.
  intros. unfold slice. rewrite (skipn_get_cons _ _ H0).
  replace (r - l) with (S (r - S l)) by lia. reflexivity.
Qed.

Lemma slice_app {A} l m r (xs : list A) :
  l <= m -> m <= r -> slice l r xs = slice l m xs ++ slice m r xs.
Proof.
  intros. unfold slice.
  rewrite <- (firstn_skipn (m - l) (firstn (r - l) (skipn l xs))).
  f_equal.
  - rewrite firstn_firstn. f_equal. lia.
  - rewrite skipn_firstn_comm. f_equal; [lia|].
    apply get_ext. intros i. rewrite !get_skipn. f_equal. lia.
Qed.

Lemma slice_snoc {A} l r (xs : list A) x :
  l <= r -> get xs r = Some x -> slice l (S r) xs = slice l r xs ++ [x].
Proof.
  intros. rewrite (@slice_app _ l r (S r)) by lia. f_equal.
  rewrite slice_cons with (x := x) by (auto; lia). rewrite slice_nil; auto.
Qed.

Lemma slice_full {A} (xs : list A) : slice 0 (length xs) xs = xs.
Proof. unfold slice. rewrite Nat.sub_0_r. apply firstn_all. Qed.

Lemma slice_firstn {A} r (xs : list A) : slice 0 r xs = firstn r xs.
Proof. unfold slice. now rewrite Nat.sub_0_r. Qed.

Lemma lset_app {A} (l : list A) i x : i < length l -> lset l i x = firstn i l ++ x :: skipn (S i) l.
Proof.
  revert i; induction l; intros [|i] H; simpl in *; try lia; auto.
  rewrite IHl by lia. reflexivity.
Qed.

Lemma lset_same {A} (l : list A) i x : get l i = Some x -> lset l i x = l.
Proof.
  unfold get. revert i; induction l; intros [|i]; simpl; intros; auto; try congruence.
  f_equal; auto.
Qed.

Lemma lset_lset {A} (l : list A) i x y : lset (lset l i x) i y = lset l i y.
Proof. revert i; induction l; intros [|i]; simpl; f_equal; auto. Qed.

Lemma In_lset {A} (l : list A) i x y : In y (lset l i x) -> y = x \/ In y l.
Proof.
  revert i; induction l; intros [|i]; simpl; auto; intros [H|H]; auto.
  apply IHl in H. tauto.
Qed.

(** ** Loop rules *)
Lemma loop_rule {S R} (I : S -> Prop) (m : S -> nat) (Q : R -> Prop) (body : S -> option (S + R)) :
  (forall s, I s -> exists x, body s = Some x /\
      match x with inl s' => I s' /\ m s' < m s | inr r => Q r end) ->
  forall fuel s, I s -> m s < fuel -> exists r, loop fuel body s = Some r /\ Q r.
Proof.
  intros H fuel. induction fuel; intros s Hs Hm; [lia|].
  destruct (H s Hs) as (x & E & K). simpl. rewrite E.
  destruct x as [s'|r]; eauto.
  destruct K. apply IHfuel; auto. lia.
Qed.

Lemma for_up_rule {S} (I : nat -> S -> Prop) body n : forall lo s,
  I lo s ->
  (forall i s, lo <= i < lo + n -> I i s -> exists s', body i s = Some s' /\ I (Datatypes.S i) s') ->
  exists s', for_up n lo body s = Some s' /\ I (lo + n) s'.
Proof.
  induction n; intros lo s H0 H; simpl.
  - exists s. rewrite Nat.add_0_r. auto.
  - destruct (H lo s) as (s1 & E & H1); auto; [lia|].
    rewrite E. simpl. replace (lo + Datatypes.S n) with (Datatypes.S lo + n) by lia.
    apply IHn; auto. intros. apply H; auto. lia.
Qed.

Lemma for_down_rule {S} (I : nat -> S -> Prop) body lo n : forall s,
  I (lo + n) s ->
  (forall i s, lo <= i < lo + n -> I (Datatypes.S i) s -> exists s', body i s = Some s' /\ I i s') ->
  exists s', for_down n lo body s = Some s' /\ I lo s'.
Proof.
  induction n; intros s H0 H; simpl.
  - exists s. rewrite Nat.add_0_r in H0. auto.
  - destruct (H (lo + n) s) as (s1 & E & H1); auto; [lia| now rewrite <- Nat.add_succ_r |].
    rewrite E. simpl. apply IHn; auto. intros. apply H; auto. lia.
Qed.

Lemma for_each_rule {A S} (I : list A -> list A -> S -> Prop) body l : forall done s,
  I done l s ->
  (forall done x rest s, I done (x :: rest) s -> exists s', body x s = Some s' /\ I (done ++ [x]) rest s') ->
  exists s', for_each l body s = Some s' /\ I (done ++ l) [] s'.
Proof.
  induction l; intros done s H0 H; simpl.
  - exists s. rewrite app_nil_r. auto.
  - destruct (H _ _ _ _ H0) as (s1 & E & H1). rewrite E. simpl.
    replace (done ++ a :: l) with ((done ++ [a]) ++ l) by (rewrite <- app_assoc; reflexivity).
    apply IHl; auto.
Qed.

(** ** Products *)
Section Prod.
  Variables (A : Type) (op : A -> A -> A) (e : A).
  Hypothesis M : monoid_laws op e.

  Lemma product_app l1 l2 : product op e (l1 ++ l2) = op (product op e l1) (product op e l2).
  Proof.
    unfold product. induction l1; simpl.
    - now rewrite (mon_left M).
    - now rewrite IHl1, (mon_assoc M).
  Qed.

  Lemma product_one x : product op e [x] = x.
  Proof. simpl. apply (mon_right M). Qed.
End Prod.

(** ** Parity *)
Lemma odd_div2 n : Nat.odd n = true -> n = 2 * Nat.div2 n + 1.
Proof. intros H. rewrite (Nat.div2_odd n) at 1. rewrite H. reflexivity. Qed.
Lemma even_div2 n : Nat.odd n = false -> n = 2 * Nat.div2 n.
Proof. intros H. rewrite (Nat.div2_odd n) at 1. rewrite H. simpl; lia. Qed.

Lemma list_updates_length {A} h : forall xs : list A, length (list_updates xs h) = length xs.
Proof.
  unfold list_updates. induction h as [|(i & x) h IH]; intros; simpl; auto. rewrite IH. apply lset_length.
Qed.

Lemma list_adds_length {A} (plus : A -> A -> A) h : forall xs, length (list_adds plus xs h) = length xs.
Proof.
  unfold list_adds. induction h as [|(i & x) h IH]; intros; simpl; auto. rewrite IH.
  destruct (get xs i); auto. apply lset_length.
Qed.
