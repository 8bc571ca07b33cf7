From Coq Require Import Lia Ring_theory Ring.
From Verif Require Import Base BaseLemmas NthExtra RSum BitConvProof MatrixModel MatrixProof.

Section Det.
Variable T : Type.
Variables (zero one : T) (add mul sub : T -> T -> T) (opp : T -> T).
Hypothesis RT : ring_theory zero one add mul sub opp eq.
Add Ring Tring : RT.
Let SR := SRT T zero one add mul sub opp RT.
Notation sum := (sum T zero add).
Notation D := (laplace zero one add mul opp).
Infix "+" := add. Infix "*" := mul.
Definition term n (f : nat -> nat -> T) (i : nat) : T :=
  let x := f i 0 * D n (fun a b => f (skip_row i a) (S b)) in if Nat.odd i then opp x else x.
Lemma lap_S n f : D (S n) f = sum (seq 0 (S n)) (term n f).
Proof. reflexivity. Qed.
Lemma skip_ne i a : skip_row i a <> i.
Proof. unfold skip_row. destruct (Nat.ltb_spec a i); lia. Qed.
Lemma skip_lt n i a : (a < n)%nat -> (skip_row i a < S n)%nat.
Proof. unfold skip_row. destruct (Nat.ltb_spec a i); lia. Qed.
Lemma lap_ext n : forall f g, (forall a b, a < n -> b < n -> f a b = g a b) -> D n f = D n g.
Proof.
  induction n as [|n IH]; intros f g H; [reflexivity|]. rewrite !lap_S. apply sum_ext. intros i Hi. apply in_seq in Hi. unfold term.
  rewrite (IH (fun a b => f (skip_row i a) (S b)) (fun a b => g (skip_row i a) (S b))), H; auto; try lia.
  intros a b Ha Hb. apply H; [now apply skip_lt|lia].
Qed.
(** The row of the minor where row [k] went. *)
Definition back i k := if k <? i then k else (k - 1)%nat.
Lemma skip_back i k : k <> i -> skip_row i (back i k) = k.
Proof. unfold skip_row, back. intros H. destruct (Nat.ltb_spec k i); [destruct (Nat.ltb_spec k i); lia|destruct (Nat.ltb_spec (k - 1) i); lia]. Qed.
Lemma skip_inj i a b : skip_row i a = skip_row i b -> a = b.
Proof. unfold skip_row. destruct (Nat.ltb_spec a i), (Nat.ltb_spec b i); lia. Qed.
Lemma back_lt n i k : (k < S n)%nat -> (i < S n)%nat -> k <> i -> (back i k < n)%nat.
Proof. unfold back. destruct (Nat.ltb_spec k i); lia. Qed.

Lemma lap_lin n : forall k f g h c, (k < n)%nat ->
  (forall a b, a < n -> b < n -> a <> k -> g a b = f a b /\ h a b = f a b) ->
  (forall b, b < n -> f k b = g k b + c * h k b) -> D n f = D n g + c * D n h.
Proof.
  induction n as [|n IH]; intros k f g h c Hk He Hl; [lia|]. rewrite !lap_S, <- (sum_mul _ _ _ _ _ SR), <- (sum_add _ _ _ _ _ SR).
  apply sum_ext. intros i Hi. apply in_seq in Hi. unfold term. cbv zeta. destruct (Nat.eq_dec i k) as [->|Ne].
  - rewrite (lap_ext n (fun a b => g (skip_row k a) (S b)) (fun a b => f (skip_row k a) (S b))).
    2: { intros a b Ha Hb. apply He; [now apply skip_lt|lia|apply skip_ne]. }
    rewrite (lap_ext n (fun a b => h (skip_row k a) (S b)) (fun a b => f (skip_row k a) (S b))).
    2: { intros a b Ha Hb. apply He; [now apply skip_lt|lia|apply skip_ne]. }
    rewrite Hl by lia. destruct (Nat.odd k); ring.
  - destruct (He i 0) as [Eg Eh]; try lia. rewrite Eg, Eh.
    rewrite (IH (back i k) (fun a b => f (skip_row i a) (S b)) (fun a b => g (skip_row i a) (S b)) (fun a b => h (skip_row i a) (S b)) c).
    + destruct (Nat.odd i); ring.
    + apply back_lt; lia.
    + intros a b Ha Hb Na. apply He; [now apply skip_lt|lia|]. intros E. apply Na. apply (skip_inj i). rewrite skip_back by lia. exact E.
    + intros b Hb. rewrite skip_back by lia. apply Hl. lia.
Qed.

Lemma lap_alt_adj n : forall k f, (S k < n)%nat -> (forall b, b < n -> f k b = f (S k) b) -> D n f = zero.
Proof.
  induction n as [|n IH]; intros k f Hk He; [lia|]. rewrite lap_S.
  replace (seq 0 (S n)) with (seq 0 k ++ [k; S k] ++ seq (S (S k)) (n - k - 1)).
  2: { replace (S n) with (k + (2 + (n - k - 1)))%nat by lia. rewrite !seq_app. cbn [Nat.add seq app]. replace (k + 1)%nat with (S k) by lia. replace (k + 2)%nat with (S (S k)) by lia. reflexivity. }
  assert (Z : forall i, (i < S n)%nat -> i <> k -> i <> S k -> term n f i = zero).
  { intros i Hi N1 N2. unfold term. rewrite (IH (back i k)).
    - destruct (Nat.odd i); ring.
    - unfold back. destruct (Nat.ltb_spec k i); lia.
    - intros b Hb. assert (E : S (back i k) = back i (S k)) by (unfold back; destruct (Nat.ltb_spec k i), (Nat.ltb_spec (S k) i); lia).
      rewrite E, !skip_back by lia. apply He. lia. }
  rewrite !(sum_app _ _ _ _ _ SR), !sum_cons, sum_nil. rewrite !(sum_zero_ext _ _ _ _ _ SR).
  - unfold term. rewrite He by lia. rewrite (lap_ext n (fun a b => f (skip_row k a) (S b)) (fun a b => f (skip_row (S k) a) (S b))).
    + rewrite Nat.odd_succ, <- Nat.negb_odd. destruct (Nat.odd k); cbn [negb]; ring.
    + intros a b Ha Hb. unfold skip_row. destruct (Nat.ltb_spec a k), (Nat.ltb_spec a (S k)); try lia; auto. assert (a = k) by lia. subst a. symmetry. apply He. lia.
  - intros i Hi. apply in_seq in Hi. apply Z; lia.
  - intros i Hi. apply in_seq in Hi. apply Z; lia.
Qed.

Definition withrow (k : nat) (r : nat -> T) (f : nat -> nat -> T) : nat -> nat -> T := fun a b => if a =? k then r b else f a b.
Definition swp (p q : nat) (f : nat -> nat -> T) : nat -> nat -> T := fun a b => f (if a =? p then q else if a =? q then p else a) b.
(** From "equal rows [p], [q] give zero" to "swapping [p] and [q] changes the sign". *)
Lemma swap_of_alt n p q f : (p < n)%nat -> (q < n)%nat -> p <> q ->
  (forall g, (forall b, b < n -> g p b = g q b) -> D n g = zero) -> D n (swp p q f) = opp (D n f).
Proof.
  intros Hp Hq N A.
  pose (s := fun b => f p b + one * f q b).
  pose (m := fun r1 r2 => withrow p r1 (withrow q r2 f)).
  assert (M1 : forall r2, D n (m s r2) = D n (m (f p) r2) + one * D n (m (f q) r2)).
  { intros r2. apply (lap_lin n p); auto; unfold m, withrow.
    - intros a b _ _ Na. destruct (Nat.eqb_spec a p); [lia|auto].
    - intros b _. rewrite Nat.eqb_refl. reflexivity. }
  assert (M2 : forall r1, D n (m r1 s) = D n (m r1 (f p)) + one * D n (m r1 (f q))).
  { intros r1. apply (lap_lin n q); auto; unfold m, withrow.
    - intros a b _ _ Na. destruct (Nat.eqb_spec a q); [lia|auto].
    - intros b _. rewrite Nat.eqb_refl. destruct (Nat.eqb_spec q p); [lia|]. reflexivity. }
  assert (Z : forall r, D n (m r r) = zero).
  { intros r. apply A. intros b _. unfold m, withrow. rewrite !Nat.eqb_refl. now destruct (q =? p). }
  pose proof (Z s) as H. rewrite M1, !M2, !Z in H.
  assert (E1 : D n (m (f p) (f q)) = D n f).
  { apply lap_ext. intros a b _ _. unfold m, withrow. destruct (Nat.eqb_spec a p); [now subst|]. destruct (Nat.eqb_spec a q); now subst. }
  assert (E2 : D n (m (f q) (f p)) = D n (swp p q f)).
  { apply lap_ext. intros a b _ _. unfold m, withrow, swp. destruct (Nat.eqb_spec a p); [now subst|]. destruct (Nat.eqb_spec a q); now subst. }
  rewrite E1, E2 in H. transitivity (opp (D n f) + (zero + one * D n f + one * (D n (swp p q f) + one * zero))); [ring|]. rewrite H. ring.
Qed.
Lemma lap_alt n d : forall p q f, (q < n)%nat -> q = (p + S d)%nat -> (forall b, b < n -> f p b = f q b) -> D n f = zero.
Proof.
  induction d as [|d IH]; intros p q f Hq E He.
  - apply (lap_alt_adj n p); [lia|]. intros b Hb. rewrite He by auto. f_equal. lia.
  - set (q' := (p + S d)%nat).
    assert (H : D n (swp q' q f) = opp (D n f)).
    { apply swap_of_alt; try lia. intros g Hg. apply (lap_alt_adj n q'); [lia|]. intros b Hb. rewrite Hg by auto. f_equal. lia. }
    rewrite (IH p q' (swp q' q f)) in H.
    + transitivity (opp (opp (D n f))); [ring|]. rewrite <- H. ring.
    + lia.
    + reflexivity.
    + intros b Hb. unfold swp. rewrite Nat.eqb_refl. destruct (Nat.eqb_spec p q'); [lia|]. destruct (Nat.eqb_spec p q); [lia|]. now apply He.
Qed.
Lemma lap_alternating n p q f : (p < n)%nat -> (q < n)%nat -> p <> q -> (forall b, b < n -> f p b = f q b) -> D n f = zero.
Proof.
  intros Hp Hq N He. destruct (Nat.lt_ge_cases p q).
  - apply (lap_alt n (q - p - 1) p q); auto. lia.
  - apply (lap_alt n (p - q - 1) q p); auto; [lia|]. intros b Hb. symmetry. auto.
Qed.
Lemma lap_swap n p q f : (p < n)%nat -> (q < n)%nat -> p <> q -> D n (swp p q f) = opp (D n f).
Proof. intros Hp Hq N. apply swap_of_alt; auto. intros g Hg. now apply (lap_alternating n p q). Qed.
Lemma lap_addrow n i j c f : (i < n)%nat -> (j < n)%nat -> i <> j -> D n (withrow j (fun b => f j b + c * f i b) f) = D n f.
Proof.
  intros Hi Hj N. rewrite (lap_lin n j _ f (withrow j (f i) f) c).
  - rewrite (lap_alternating n i j (withrow j (f i) f)); auto; [ring|]. intros b _. unfold withrow. rewrite Nat.eqb_refl. destruct (Nat.eqb_spec i j); [lia|auto].
  - auto.
  - intros a b _ _ Na. unfold withrow. destruct (Nat.eqb_spec a j); [lia|auto].
  - intros b _. unfold withrow. now rewrite Nat.eqb_refl.
Qed.
Lemma lap_col0 n f : (forall a, (0 < a <= n)%nat -> f a 0 = zero) -> D (S n) f = f 0 0 * D n (fun a b => f (S a) (S b)).
Proof.
  intros H. rewrite lap_S. cbn [seq]. rewrite sum_cons, (sum_zero_ext _ _ _ _ _ SR).
  - unfold term. cbn [Nat.odd Nat.even negb]. change (Nat.odd 0) with false. cbv iota. rewrite (lap_ext n _ (fun a b => f (S a) (S b))) by reflexivity. ring.
  - intros i Hi. apply in_seq in Hi. unfold term. rewrite H by lia. destruct (Nat.odd i); ring.
Qed.
Lemma lap_elim n f c : (forall a, (0 < a <= n)%nat -> f a 0 = c a * f 0 0) ->
  D (S n) f = f 0 0 * D n (fun a b => sub (f (S a) (S b)) (c (S a) * f 0 (S b))).
Proof.
  intros H. pose (g := fun t a b => if (0 <? a) && (a <=? t) then sub (f a b) (c a * f 0 b) else f a b).
  assert (G : forall t, (t <= n)%nat -> D (S n) (g t) = D (S n) f).
  { induction t as [|t IH]; intros Ht.
    - apply lap_ext. intros a b _ _. unfold g. destruct (Nat.ltb_spec 0 a), (Nat.leb_spec a 0); cbn [andb]; try lia; reflexivity.
    - rewrite <- IH by lia. rewrite <- (lap_addrow (S n) 0 (S t) (opp (c (S t))) (g t)) by lia. apply lap_ext. intros a b _ _. unfold withrow, g.
      destruct (Nat.eqb_spec a (S t)) as [->|Na].
      + destruct (Nat.ltb_spec 0 (S t)), (Nat.leb_spec (S t) (S t)), (Nat.leb_spec (S t) t); cbn [andb Nat.ltb Nat.leb]; try lia. ring.
      + destruct (Nat.ltb_spec 0 a), (Nat.leb_spec a t), (Nat.leb_spec a (S t)); cbn [andb]; try lia; reflexivity. }
  rewrite <- (G n) by lia. rewrite lap_col0.
  - unfold g at 1. cbn [Nat.ltb Nat.leb andb]. f_equal. apply lap_ext. intros a b Ha Hb. unfold g. destruct (Nat.ltb_spec 0 (S a)), (Nat.leb_spec (S a) n); cbn [andb]; try lia; reflexivity.
  - intros a Ha. unfold g. destruct (Nat.ltb_spec 0 a), (Nat.leb_spec a n); cbn [andb]; try lia. rewrite H by lia. ring.
Qed.
Lemma lap_zero n f : (forall a, (a <= n)%nat -> f a 0 = zero) -> D (S n) f = zero.
Proof. intros H. rewrite lap_col0 by (intros; apply H; lia). rewrite H by lia. ring. Qed.
End Det.
