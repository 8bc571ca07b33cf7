From Coq Require Import Lia Permutation Ring_theory Ring.
From Verif Require Import Base BaseLemmas NthExtra RSum BitConvProof MatrixModel MatrixProof MatrixDet MatrixDetCode MatrixGauss.

Definition inb (q : list nat) (c : nat) : bool := existsb (Nat.eqb c) q.
Lemma inb_ok q c : inb q c = true <-> In c q.
Proof. unfold inb. rewrite existsb_exists. split; [intros (x & Hx & E); apply Nat.eqb_eq in E; now subst|]. intros H. exists c. split; auto. apply Nat.eqb_refl. Qed.
Definition free (q : list nat) (n : nat) : list nat := filter (fun c => negb (inb q c)) (seq 0 n).
Lemma free_in q n c : In c (free q n) <-> c < n /\ ~ In c q.
Proof.
  unfold free. rewrite filter_In, in_seq, negb_true_iff, <- inb_ok. destruct (inb q c); intuition (try lia; try discriminate).
Qed.
Lemma filter_split_len {X} (p : X -> bool) l : length (filter p l) + length (filter (fun x => negb (p x)) l) = length l.
Proof. induction l as [|x l IH]; auto. cbn [filter]. destruct (p x); cbn [negb length]; lia. Qed.
Lemma inc_nodup q : (forall r s, r < s < length q -> nth r q 0 < nth s q 0) -> NoDup q.
Proof.
  intros H. apply (NoDup_nth q 0). intros i j Hi Hj E. destruct (Nat.lt_trichotomy i j) as [L|[L|L]]; auto.
  - specialize (H i j). lia.
  - specialize (H j i). lia.
Qed.
Lemma NoDup_firstn {X} k (q : list X) : NoDup q -> NoDup (firstn k q).
Proof.
  revert q. induction k as [|k IH]; intros q N; [constructor|]. destruct q as [|x q]; [constructor|]. inversion N; subst. cbn [firstn]. constructor; auto.
  intros I. apply H1. rewrite <- (firstn_skipn k q). apply in_app_iff. now left.
Qed.
Lemma in_firstn_nth (q : list nat) k x : k <= length q -> In x (firstn k q) <-> exists s, s < k /\ nth s q 0 = x.
Proof.
  intros Hk. split.
  - intros I. apply (In_nth _ _ 0) in I as (s & Hs & E). rewrite firstn_length in Hs. exists s. split; [lia|]. rewrite <- E. rewrite <- (firstn_skipn k q) at 1. rewrite app_nth1; auto. rewrite firstn_length. lia.
  - intros (s & Hs & <-). rewrite <- (firstn_skipn k q) at 1. rewrite app_nth1 by (rewrite firstn_length; lia). apply nth_In. rewrite firstn_length. lia.
Qed.
Lemma free_length q c k : (forall r s, r < s < length q -> nth r q 0 < nth s q 0) -> k <= length q ->
  (forall s, s < k -> nth s q 0 < c) -> (forall s, k <= s < length q -> c <= nth s q 0) -> length (free q c) + k = c.
Proof.
  intros Inc Hk H1 H2. pose proof (filter_split_len (inb q) (seq 0 c)) as E. rewrite seq_length in E. fold (free q c) in E.
  assert (P : Permutation (filter (inb q) (seq 0 c)) (firstn k q)).
  { apply NoDup_Permutation; [apply NoDup_filter, seq_NoDup|now apply NoDup_firstn, inc_nodup|]. intros x. rewrite filter_In, in_seq, inb_ok, in_firstn_nth by auto. split.
    - intros [Hx I]. apply (In_nth _ _ 0) in I as (s & Hs & <-). exists s. split; auto. destruct (Nat.lt_ge_cases s k); auto. specialize (H2 s). lia.
    - intros (s & Hs & <-). split; [specialize (H1 s); lia|]. apply nth_In. lia. }
  apply Permutation_length in P. rewrite firstn_length in P. lia.
Qed.
Lemma free_index q n c k : (forall r s, r < s < length q -> nth r q 0 < nth s q 0) -> k <= length q ->
  (forall s, s < k -> nth s q 0 < c) -> (forall s, k <= s < length q -> c < nth s q 0) -> c < n ->
  k <= c /\ nth (c - k) (free q n) 0 = c /\ c - k < length (free q n).
Proof.
  intros Inc Hk H1 H2 Hc. assert (L : length (free q c) + k = c) by (apply free_length; auto; intros s Hs; specialize (H2 s); lia).
  assert (E : exists r, free q n = free q c ++ c :: r).
  { unfold free. replace n with (c + S (n - c - 1)) by lia. rewrite seq_app, filter_app. cbn [seq filter Nat.add]. rewrite (proj2 (negb_true_iff _)); [eexists; reflexivity|].
    destruct (inb q c) eqn:I; auto. apply inb_ok in I. apply (In_nth _ _ 0) in I as (s & Hs & E). destruct (Nat.lt_ge_cases s k); [specialize (H1 s); lia|specialize (H2 s); lia]. }
  destruct E as (r & ->). split; [lia|]. replace (c - k) with (length (free q c)) by lia. rewrite app_nth2, Nat.sub_diag by lia. split; [reflexivity|]. rewrite app_length. cbn [length]. lia.
Qed.

Section Kernel.
Variable T : Type.
Variables (zero one : T) (add mul sub : T -> T -> T) (opp : T -> T).
Hypothesis RT : ring_theory zero one add mul sub opp eq.
Add Ring Tring : RT.
Let SR := SRT T zero one add mul sub opp RT.
Notation sum := (sum T zero add).
Notation app := (row_apply zero add mul).
Notation echelon := (echelon zero one).
Notation in_kernel := (in_kernel zero add mul).
Notation kernel_basis := (kernel_basis zero add mul).

Lemma sum_one {X} (l : list X) (x : X) f : NoDup l -> In x l -> (forall y, In y l -> y <> x -> f y = zero) -> sum l f = f x.
Proof.
  induction l as [|y l IH]; intros N I Z; [easy|]. inversion N; subst. rewrite sum_cons. destruct I as [->|I].
  - rewrite (sum_zero_ext _ _ _ _ _ SR); [ring|]. intros z Hz. apply Z; [now right|]. intros ->. easy.
  - rewrite IH; auto.
    + rewrite Z; [ring|now left|]. intros ->. easy.
    + intros z Hz. apply Z. now right.
Qed.
Lemma sum_split {X} (p : X -> bool) l f : sum l f = add (sum (filter p l) f) (sum (filter (fun x => negb (p x)) l) f).
Proof. induction l as [|x l IH]; cbn [filter]; [rewrite !sum_nil; ring|]. rewrite sum_cons, IH. destruct (p x); cbn [negb]; rewrite ?sum_cons; ring. Qed.
Lemma sum_nth (l : list nat) f : sum l f = sum (seq 0 (length l)) (fun t => f (nth t l 0)).
Proof.
  rewrite <- (sum_map T zero add (fun t => nth t l 0) (seq 0 (length l)) f). f_equal. apply (nth_ext_len _ _ 0).
  - now rewrite map_length, seq_length.
  - intros i Hi. rewrite (nth_indep (map (fun t => nth t l 0) (seq 0 (length l))) 0 (nth 0 l 0)) by (now rewrite map_length, seq_length). rewrite (map_nth (fun t => nth t l 0)). now rewrite seq_nth.
Qed.
(** A row of an echelon form applied to a vector. *)
Lemma ech_app row lc q f y r : echelon row lc q f -> r < length q ->
  app lc f y r = add (y (nth r q 0)) (sum (free q lc) (fun c => mul (f r c) (y c))).
Proof.
  intros (H1 & H2 & H3 & H4 & H5 & H6 & H7) Hr. rewrite app_sum, (sum_split (inb q)). fold (free q lc). f_equal.
  assert (N : NoDup q) by now apply inc_nodup.
  rewrite (sum_one _ (nth r q 0)).
  - rewrite H4 by auto. ring.
  - apply NoDup_filter, seq_NoDup.
  - apply filter_In. split; [apply in_seq; specialize (H2 r Hr); lia|]. apply inb_ok, nth_In. auto.
  - intros c Hc Nc. apply filter_In in Hc as [Hc I]. apply inb_ok, (In_nth _ _ 0) in I as (s & Hs & <-). rewrite (H5 s r) by (auto; try lia; congruence). ring.
Qed.
Lemma ech_low row lc q f y r : echelon row lc q f -> length q <= r < row -> app lc f y r = zero.
Proof.
  intros (H1 & H2 & H3 & H4 & H5 & H6 & H7) Hr. rewrite app_sum. apply (sum_zero_ext _ _ _ _ _ SR). intros c Hc. apply in_seq in Hc. rewrite H7 by lia. ring.
Qed.
(** The vector of the kernel belonging to the free column [c]. *)
Definition basis_row (lc : nat) (q : list nat) (f : nat -> nat -> T) (c : nat) (v : nat -> T) : Prop :=
  v c = one /\ (forall s, s < length q -> v (nth s q 0) = opp (f s c)) /\ (forall j, j < lc -> j <> c -> ~ In j q -> v j = zero).
Lemma ech_basis row lc q f B : echelon row lc q f -> (forall t, t < length (free q lc) -> basis_row lc q f (nth t (free q lc) 0) (B t)) ->
  kernel_basis row lc f (length (free q lc)) B.
Proof.
  intros Ec HB. pose proof Ec as (H1 & H2 & H3 & H4 & H5 & H6 & H7). set (fr := free q lc) in *.
  assert (Nf : NoDup fr) by apply NoDup_filter, seq_NoDup.
  assert (CF : forall k t, t < length fr -> combination zero add mul (length fr) B k (nth t fr 0) = k t).
  { intros k t Ht. change (sum (seq 0 (length fr)) (fun u => mul (k u) (B u (nth t fr 0))) = k t). rewrite (sum_one _ t).
    - destruct (HB t Ht) as (E & _ & _). rewrite E. ring.
    - apply seq_NoDup.
    - apply in_seq. lia.
    - intros u Hu N. apply in_seq in Hu. destruct (HB u) as (_ & _ & Z); [lia|]. assert (I : In (nth t fr 0) fr) by now apply nth_In. apply free_in in I as [I1 I2].
      rewrite Z; auto; [ring|]. intros E. apply N. apply (proj1 (NoDup_nth fr 0) Nf); auto; lia. }
  assert (CP : forall k s, s < length q -> combination zero add mul (length fr) B k (nth s q 0) = opp (sum (seq 0 (length fr)) (fun t => mul (f s (nth t fr 0)) (k t)))).
  { intros k s Hs. change (sum (seq 0 (length fr)) (fun u => mul (k u) (B u (nth s q 0))) = opp (sum (seq 0 (length fr)) (fun t => mul (f s (nth t fr 0)) (k t)))).
    transitivity (mul (opp one) (sum (seq 0 (length fr)) (fun t => mul (f s (nth t fr 0)) (k t)))); [|ring]. rewrite <- (sum_mul _ _ _ _ _ SR). apply sum_ext. intros u Hu. apply in_seq in Hu.
    destruct (HB u) as (_ & E & _); [lia|]. rewrite E by auto. ring. }
  split.
  - intros y. split.
    + intros K. exists (fun t => y (nth t fr 0)). intros j Hj. destruct (inb q j) eqn:I.
      * apply inb_ok, (In_nth _ _ 0) in I as (s & Hs & <-). rewrite CP by auto. assert (Ks := K s). rewrite (ech_app row lc q) in Ks by auto. rewrite <- (sum_nth fr (fun c => mul (f s c) (y c))).
        fold fr in Ks. specialize (Ks ltac:(lia)). transitivity (add (add (y (nth s q 0)) (sum fr (fun c => mul (f s c) (y c)))) (opp (sum fr (fun c => mul (f s c) (y c))))); [ring|]. rewrite Ks. ring.
      * assert (If : In j fr) by (apply free_in; split; auto; rewrite <- inb_ok; congruence). apply (In_nth _ _ 0) in If as (t & Ht & <-). now rewrite CF.
    + intros (k & E) r Hr. destruct (Nat.lt_ge_cases r (length q)) as [Hq|Hq]; [|apply (ech_low row lc q); auto].
      rewrite (ech_app row lc q) by auto. fold fr. rewrite E by auto. rewrite CP by auto. rewrite (sum_nth fr (fun c => mul (f r c) (y c))).
      rewrite (sum_ext _ _ _ (seq 0 (length fr)) (fun t => mul (f r (nth t fr 0)) (y (nth t fr 0))) (fun t => mul (f r (nth t fr 0)) (k t))); [ring|].
      intros t Ht. apply in_seq in Ht. f_equal. assert (I : In (nth t fr 0) fr) by (apply nth_In; lia). apply free_in in I as [I1 I2]. rewrite E by auto. rewrite CF by lia. reflexivity.
  - intros k Z t Ht. rewrite <- (CF k t) by auto. apply Z. assert (I : In (nth t fr 0) fr) by (now apply nth_In). now apply free_in in I as [I1 I2].
Qed.
(** Such a basis exists. *)
Definition some_basis (q : list nat) (lc : nat) (f : nat -> nat -> T) (t j : nat) : T :=
  let c := nth t (free q lc) 0 in
  if j =? c then one else sum (seq 0 (length q)) (fun s => if nth s q 0 =? j then opp (f s c) else zero).
Lemma some_basis_ok row lc q f t : echelon row lc q f -> t < length (free q lc) -> basis_row lc q f (nth t (free q lc) 0) (some_basis q lc f t).
Proof.
  intros (H1 & H2 & H3 & H4 & H5 & H6 & H7) Ht. assert (N : NoDup q) by now apply inc_nodup. assert (I : In (nth t (free q lc) 0) (free q lc)) by now apply nth_In. apply free_in in I as [I1 I2].
  unfold some_basis. set (c := nth t (free q lc) 0) in *. split; [now rewrite Nat.eqb_refl|]. split.
  - intros s Hs. destruct (Nat.eqb_spec (nth s q 0) c) as [E|E]; [exfalso; apply I2; rewrite <- E; now apply nth_In|].
    rewrite (sum_one _ s); [now rewrite Nat.eqb_refl|apply seq_NoDup|apply in_seq; lia|]. intros u Hu Nu. apply in_seq in Hu. destruct (Nat.eqb_spec (nth u q 0) (nth s q 0)) as [Eu|]; auto.
    exfalso. apply Nu. apply (proj1 (NoDup_nth q 0) N); auto. lia.
  - intros j Hj Nj Iq. destruct (Nat.eqb_spec j c); [easy|]. apply (sum_zero_ext _ _ _ _ _ SR). intros s Hs. apply in_seq in Hs. destruct (Nat.eqb_spec (nth s q 0) j) as [E|]; auto. exfalso. apply Iq. rewrite <- E. apply nth_In. lia.
Qed.
Lemma ech_free_length row lc q f : echelon row lc q f -> length (free q lc) = lc - length q /\ length q <= lc.
Proof.
  intros (H1 & H2 & H3 & _). pose proof (free_length q lc (length q) H3 (le_n _)) as L. assert (length (free q lc) + length q = lc) by (apply L; auto; lia). lia.
Qed.
End Kernel.
