(** Lemmas on two-dimensional arrays, semigroup folds, commutative products
    and binary logarithms. *)
From Verif Require Import Base BaseLemmas.
Set Implicit Arguments.

(** A table with [h] rows of length [w]. *)
Definition dims {A} (t : list (list A)) (h w : nat) :=
  length t = h /\ forall i row, get t i = Some row -> length row = w.

Lemma dims_get2 {A} (t : list (list A)) h w i j : dims t h w -> i < h -> j < w -> exists x, get2 t i j = Some x.
Proof.
  intros (H & R) Hi Hj. unfold get2. destruct (get_lt t (i:=i)) as (row & E); [lia|].
  rewrite E. cbn [obind]. apply get_lt. rewrite (R _ _ E). auto.
Qed.

Lemma dims_set2 {A} (t : list (list A)) h w i j x : dims t h w -> i < h -> j < w ->
  exists t', set2 t i j x = Some t' /\ dims t' h w /\
    (forall a b, get2 t' a b = if (a =? i) && (b =? j) then Some x else get2 t a b).
Proof.
  intros (H & R) Hi Hj. unfold set2. destruct (get_lt t (i:=i)) as (row & E); [lia|].
  rewrite E. cbn [obind]. rewrite set_some by (rewrite (R _ _ E); auto). cbn [obind].
  rewrite set_some by lia. eexists; split; [reflexivity|]. split.
  - split; [rewrite lset_length; auto|]. intros a r. rewrite get_lset.
    destruct (_ && _); [|apply R]. intros Er. inversion Er. rewrite lset_length. eapply R; eauto.
  - intros a b. unfold get2. rewrite get_lset.
    destruct (Nat.eqb_spec i a) as [->|]; simpl.
    + replace (a <? length t) with true by lia. cbn [obind]. rewrite Nat.eqb_refl, E. cbn [obind].
      rewrite get_lset. rewrite (R _ _ E). replace (j <? w) with true by lia. rewrite andb_true_r. rewrite Nat.eqb_sym. auto.
    + rewrite (Nat.eqb_sym a i). destruct (Nat.eqb_spec i a); [contradiction|]. reflexivity.
Qed.

Lemma set2_inv {A} (t t' : list (list A)) i j x : set2 t i j x = Some t' ->
  forall a b, get2 t' a b = if (a =? i) && (b =? j) then Some x else get2 t a b.
Proof.
  unfold set2. intros H. apply obind_some in H. destruct H as (row & E & H).
  apply obind_some in H. destruct H as (row' & E' & H). apply set_inv in E'. apply set_inv in H.
  destruct E' as (Hj & ->). destruct H as (Hi & ->). intros a b. unfold get2.
  rewrite get_lset. rewrite (Nat.eqb_sym a i). destruct (Nat.eqb_spec i a) as [->|]; simpl; auto.
  replace (a <? length t) with true by lia. cbn [obind]. rewrite get_lset, E. cbn [obind].
  rewrite (Nat.eqb_sym b j). destruct (Nat.eqb_spec j b); simpl; auto. subst. replace (b <? length row) with true by lia. auto.
Qed.

Lemma get2_repeat {A} (x : A) h w i j : i < h -> j < w -> get2 (repeat (repeat x w) h) i j = Some x.
Proof. intros. unfold get2. rewrite get_repeat by auto. cbn [obind]. now apply get_repeat. Qed.

Lemma dims_repeat {A} (x : A) h w : dims (repeat (repeat x w) h) h w.
Proof.
  split; [apply repeat_length|]. intros i row E. assert (i < h).
  { apply get_some_lt in E. rewrite repeat_length in E. auto. }
  rewrite get_repeat in E by auto. inversion E. apply repeat_length.
Qed.

Lemma dims_cons {A} (row : list A) t h w : length row = w -> dims t h w -> dims (row :: t) (S h) w.
Proof. intros L (H & R). split; simpl; auto. intros [|i] r E; [inversion E; subst; auto|]. eapply R; eauto. Qed.

(** ** Semigroup folds *)
Section Semi.
  Variables (A : Type) (op : A -> A -> A).
  Hypothesis assoc : forall x y z, op x (op y z) = op (op x y) z.

  Lemma fold_left_assoc l : forall x y, fold_left op l (op x y) = op x (fold_left op l y).
  Proof. induction l; intros; simpl; auto. rewrite <- assoc. apply IHl. Qed.

  Lemma sfold_app l1 l2 a b : sfold op l1 = Some a -> sfold op l2 = Some b -> sfold op (l1 ++ l2) = Some (op a b).
  Proof.
    destruct l1 as [|x l1], l2 as [|y l2]; try discriminate. simpl. intros E1 E2. inversion E1; inversion E2. f_equal.
    rewrite fold_left_app. simpl. now rewrite fold_left_assoc.
  Qed.

  Lemma sfold_some l : l <> [] -> exists x, sfold op l = Some x.
  Proof. destruct l; [congruence|]. simpl. eauto. Qed.
End Semi.

Lemma slice_nonempty {A} l r (xs : list A) : l < r -> r <= length xs -> slice l r xs <> [].
Proof. intros H1 H2 E. pose proof (@slice_length _ l r xs). rewrite E in H. simpl in H. lia. Qed.

Lemma slice_ext {A} l r (xs ys : list A) : (forall i, l <= i < r -> get xs i = get ys i) -> slice l r xs = slice l r ys.
Proof.
  intros H. apply get_ext. intros i. unfold slice. destruct (Nat.lt_ge_cases i (r - l)).
  - rewrite !get_firstn, !get_skipn by auto. apply H. lia.
  - rewrite !get_none; auto; rewrite firstn_length; lia.
Qed.

(** ** Commutative products *)
Section Comm.
  Variables (A : Type) (op : A -> A -> A) (e : A).
  Hypothesis C : cmonoid_laws op e.

  Lemma cm_right x : op x e = x.
  Proof. rewrite (cm_comm C). apply (cm_left C). Qed.

  Lemma cm_monoid : monoid_laws op e.
  Proof. split; [apply (cm_assoc C)|apply (cm_left C)|apply cm_right]. Qed.

  Lemma cm_swap x y z : op (op x y) z = op (op x z) y.
  Proof. rewrite <- !(cm_assoc C). f_equal. apply (cm_comm C). Qed.

  Lemma product_lset xs i y v l r : get xs i = Some y ->
    product op e (slice l r (lset xs i (op y v))) =
    if (l <=? i) && (i <? r) then op (product op e (slice l r xs)) v else product op e (slice l r xs).
  Proof.
    intros E. assert (Hi : i < length xs) by (eapply get_some_lt; eauto).
    destruct (Nat.leb_spec l i), (Nat.ltb_spec i r); simpl;
      try (rewrite (@slice_ext _ l r (lset xs i (op y v)) xs); [auto|intros; apply get_lset_neq; lia]).
    rewrite !(@slice_app _ l i r), !(@slice_app _ i (S i) r) by lia.
    rewrite !(product_app cm_monoid).
    rewrite (@slice_ext _ l i (lset xs i (op y v)) xs) by (intros; apply get_lset_neq; lia).
    rewrite (@slice_ext _ (S i) r (lset xs i (op y v)) xs) by (intros; apply get_lset_neq; lia).
    rewrite (@slice_cons _ i (S i) (lset xs i (op y v)) (op y v)) by (try apply get_lset_eq; lia).
    rewrite (@slice_cons _ i (S i) xs y) by (auto; lia). rewrite !(@slice_nil _ (S i) (S i)) by lia.
    simpl. rewrite !cm_right. rewrite <- !(cm_assoc C). f_equal. f_equal. apply (cm_comm C).
  Qed.

  Lemma product_e n : product op e (repeat e n) = e.
  Proof. induction n; simpl; auto. rewrite IHn. apply (cm_left C). Qed.
End Comm.

(** ** Logarithms *)
Lemma msb_pos x : 0 < x -> msb x = Some (Nat.log2 x).
Proof. intros. unfold msb. destruct (Nat.eqb_spec x 0); auto; lia. Qed.

Lemma bitlen_le x : x < 2 ^ bitlen x.
Proof.
  unfold bitlen. destruct (Nat.eqb_spec x 0); [subst; simpl; lia|].
  apply Nat.log2_spec. lia.
Qed.

Lemma pow2_pos k : 0 < 2 ^ k.
Proof. apply Nat.neq_0_lt_0, Nat.pow_nonzero. lia. Qed.

(** The highest bit in which [a < b] differ splits their range. *)
Lemma lxor_split a b : a < b -> exists q p, p = Nat.log2 (Nat.lxor a b) /\
  2 * q * 2^p <= a < (2*q+1) * 2^p /\ (2*q+1) * 2^p <= b < (2*q+2) * 2^p.
Proof.
  intros H. set (x := Nat.lxor a b). set (p := Nat.log2 x).
  assert (Hx : 0 < x). { destruct (Nat.eq_dec x 0) as [E|]; [|lia]. apply Nat.lxor_eq in E. lia. }
  assert (E : a / 2^(S p) = b / 2^(S p)).
  { rewrite <- !Nat.shiftr_div_pow2. apply Nat.lxor_eq. rewrite <- Nat.shiftr_lxor. fold x.
    rewrite Nat.shiftr_div_pow2. apply Nat.div_small. apply Nat.log2_spec. auto. }
  assert (B : Nat.testbit a p <> Nat.testbit b p).
  { intros Q. assert (Nat.testbit x p = false) by (unfold x; rewrite Nat.lxor_spec, Q; apply xorb_nilpotent).
    rewrite Nat.bit_log2 in H0; [discriminate|lia]. }
  pose proof (pow2_pos p) as W.
  assert (Ea : a / 2^p = 2 * (a / 2^(S p)) + Nat.b2n (Nat.testbit a p)).
  { rewrite Nat.pow_succ_r', (Nat.mul_comm 2 (2^p)), <- Nat.div_div by lia. rewrite Nat.testbit_eqb.
    pose proof (Nat.div_mod_eq (a/2^p) 2). pose proof (Nat.mod_upper_bound (a/2^p) 2).
    destruct (Nat.eqb_spec ((a/2^p) mod 2) 1); cbn [Nat.b2n]; lia. }
  assert (Eb : b / 2^p = 2 * (b / 2^(S p)) + Nat.b2n (Nat.testbit b p)).
  { rewrite Nat.pow_succ_r', (Nat.mul_comm 2 (2^p)), <- Nat.div_div by lia. rewrite Nat.testbit_eqb.
    pose proof (Nat.div_mod_eq (b/2^p) 2). pose proof (Nat.mod_upper_bound (b/2^p) 2).
    destruct (Nat.eqb_spec ((b/2^p) mod 2) 1); cbn [Nat.b2n]; lia. }
  pose proof (Nat.div_mod_eq a (2^p)). pose proof (Nat.mod_upper_bound a (2^p)).
  pose proof (Nat.div_mod_eq b (2^p)). pose proof (Nat.mod_upper_bound b (2^p)).
  pose proof (Nat.div_le_mono a b (2^p) ltac:(lia) ltac:(lia)).
  exists (a / 2^(S p)), p. split; auto.
  rewrite <- E in Eb. set (q := a / 2^(S p)) in *.
  destruct (Nat.testbit a p), (Nat.testbit b p); simpl in *; try congruence; [lia|].
  rewrite Ea in *. rewrite Eb in *. nia.
Qed.

(** Loop rule whose invariant mentions the remaining fuel. *)
Lemma loop_rule2 {S R} (I : nat -> S -> Prop) (Q : R -> Prop) (body : S -> option (S + R)) :
  (forall s, ~ I 0 s) ->
  forall fuel s, I fuel s ->
  (forall f s, I (Datatypes.S f) s ->
     (exists s', body s = Some (inl s') /\ I f s') \/ (exists r, body s = Some (inr r) /\ Q r)) ->
  exists r, loop fuel body s = Some r /\ Q r.
Proof.
  intros H0 fuel. induction fuel; intros s Hs H; [exfalso; eapply H0; eauto|].
  simpl. destruct (H fuel s Hs) as [(s' & E & H')|(r & E & H')]; rewrite E; eauto.
Qed.
