(** The algebra of set power series: subset convolution, sums over partitions. *)
From Coq Require Import Lia Ring_theory Ring.
From Verif Require Import Base BaseLemmas ListExtra NthExtra RSum BitConvModel BitConvSweep BitConvProof BitConvSubset SpsModel.

Lemma ldiff_le s t : Nat.ldiff s t <= s.
Proof.
  apply subset_le. rewrite subset_spec. intros i. rewrite Nat.ldiff_spec. destruct (Nat.testbit s i); auto.
Qed.
Lemma ldiff_hi_lo n s t : s < 2 ^ n -> t < 2 ^ n -> Nat.ldiff (2 ^ n + s) t = 2 ^ n + Nat.ldiff s t.
Proof.
  intros Hs Ht. pose proof (ldiff_le s t). apply Nat.bits_inj. intros b. rewrite Nat.ldiff_spec, !tb_add, Nat.ldiff_spec by lia.
  destruct (Nat.eqb_spec n b); cbn [orb]; auto. subst. now rewrite (tb_lt t b b).
Qed.
Lemma ldiff_hi_hi n s t : s < 2 ^ n -> t < 2 ^ n -> Nat.ldiff (2 ^ n + s) (2 ^ n + t) = Nat.ldiff s t.
Proof.
  intros Hs Ht. apply Nat.bits_inj. intros b. rewrite !Nat.ldiff_spec, !tb_add by lia.
  destruct (Nat.eqb_spec n b); cbn [orb negb]; auto. subst. rewrite (tb_lt s b b) by auto. now rewrite andb_false_r.
Qed.
Lemma split_lt n s : s < 2 ^ S n -> s < 2 ^ n \/ exists r, s = 2 ^ n + r /\ r < 2 ^ n.
Proof. rewrite Nat.pow_succ_r'. intros H. destruct (Nat.lt_ge_cases s (2 ^ n)); auto. right. exists (s - 2 ^ n). lia. Qed.

(** * Partitions *)

Lemma disjoint_union_all x l : forallb (fun y => Nat.land x y =? 0) l = (Nat.land x (fold_right Nat.lor 0 l) =? 0).
Proof.
  induction l as [|y l IH]; cbn [forallb fold_right]; [now rewrite Nat.land_0_r|]. rewrite IH, Nat.land_lor_distr_r.
  apply bool_iff. rewrite andb_true_iff, !Nat.eqb_eq. split; [intros [-> ->]; auto|apply Nat.lor_eq_0_iff].
Qed.
Lemma is_partition_cons r x l : is_partition r (x :: l) = subset x r && is_partition (Nat.ldiff r x) l.
Proof.
  unfold is_partition. cbn [pairwise_disjoint fold_right]. rewrite disjoint_union_all. set (u := fold_right Nat.lor 0 l).
  destruct (pairwise_disjoint l); [|rewrite !andb_false_r; auto]. rewrite andb_true_r, andb_true_l. apply bool_iff.
  rewrite !andb_true_iff, !Nat.eqb_eq, subset_spec. split.
  - intros [D <-]. split; [intros i Hi; now rewrite Nat.lor_spec, Hi|]. apply Nat.bits_inj. intros i. rewrite Nat.ldiff_spec, Nat.lor_spec.
    assert (Di : Nat.testbit (Nat.land x u) i = false) by now rewrite D, Nat.bits_0. rewrite Nat.land_spec in Di.
    destruct (Nat.testbit x i), (Nat.testbit u i); auto.
  - intros [H ->]. split; apply Nat.bits_inj; intros i; rewrite ?Nat.land_spec, ?Nat.lor_spec, Nat.ldiff_spec, ?Nat.bits_0; specialize (H i);
    destruct (Nat.testbit x i), (Nat.testbit r i); auto. now specialize (H eq_refl).
Qed.
Lemma rev_seq_S n : rev (seq 1 (S n)) = S n :: rev (seq 1 n).
Proof. rewrite seq_S, rev_app_distr. reflexivity. Qed.

Section Alg.
Variable T : Type.
Variables (zero one : T) (add mul sub : T -> T -> T) (opp : T -> T).
Hypothesis RT : ring_theory zero one add mul sub opp eq.
Add Ring Tring : RT.
Notation sum := (sum T zero add).
Let SR := SRT T zero one add mul sub opp RT.
Infix "+" := add. Infix "*" := mul. Infix "-" := sub.

Definition sconv (a b : nat -> T) (s : nat) : T :=
  sum (filter (fun t => subset t s) (seq 0 (s + 1)%nat)) (fun t => a t * b (Nat.ldiff s t)).
Definition hi (n : nat) (a : nat -> T) (t : nat) : T := a (2 ^ n + t)%nat.
Definition delta (s : nat) : T := if s =? 0 then one else zero.

Lemma sconv_full n a b s : s < 2 ^ n -> sconv a b s = sum (seq 0 (2 ^ n)) (fun t => if subset t s then a t * b (Nat.ldiff s t) else zero).
Proof.
  intros Hs. unfold sconv. rewrite (sum_filter _ _ _ _ _ SR). symmetry. apply (sum_seq_le T zero one add mul sub opp RT); [lia|].
  intros i Hi. destruct (subset i s) eqn:E; auto. apply subset_le in E. lia.
Qed.
Lemma sconv_0 a b : sconv a b 0 = a 0%nat * b 0%nat.
Proof. rewrite (sconv_full 0) by (cbn; lia). cbn. ring. Qed.
Lemma sconv_hi n a b s : s < 2 ^ n -> sconv a b (2 ^ n + s) = sconv (hi n a) b s + sconv a (hi n b) s.
Proof.
  intros Hs. rewrite (sconv_full (S n)) by (rewrite Nat.pow_succ_r'; lia). rewrite seq_pow2, (sum_app _ _ _ _ _ SR), (sum_map _ _ _ ).
  rewrite !(sconv_full n) by auto. rewrite (add_comm _ _ _ _ _ SR). f_equal; apply sum_ext; intros t Ht; apply in_seq in Ht.
  - rewrite subset_hi_hi, ldiff_hi_hi by lia. reflexivity.
  - rewrite subset_lo_hi, ldiff_hi_lo by lia. reflexivity.
Qed.
Lemma sconv_ext n a a' b b' s : s < 2 ^ n -> (forall t, t < 2 ^ n -> a t = a' t) -> (forall t, t < 2 ^ n -> b t = b' t) -> sconv a b s = sconv a' b' s.
Proof.
  intros Hs Ha Hb. rewrite !(sconv_full n) by auto. apply sum_ext. intros t Ht. apply in_seq in Ht. pose proof (ldiff_le s t).
  rewrite Ha, Hb by lia. reflexivity.
Qed.
Lemma sconv_comm n : forall a b s, s < 2 ^ n -> sconv a b s = sconv b a s.
Proof.
  induction n as [|n IH]; intros a b s Hs.
  - assert (s = 0)%nat by (cbn in Hs; lia). subst. rewrite !sconv_0. ring.
  - destruct (split_lt n s Hs) as [H|(r & -> & H)]; [auto|]. rewrite !sconv_hi by auto. rewrite (IH (hi n a)), (IH a) by auto. ring.
Qed.
Lemma sconv_add_r a b c s : sconv a (fun t => b t + c t) s = sconv a b s + sconv a c s.
Proof. unfold sconv. rewrite <- (sum_add _ _ _ _ _ SR). apply sum_ext. intros. ring. Qed.
Lemma sconv_add_l a b c s : sconv (fun t => a t + b t) c s = sconv a c s + sconv b c s.
Proof. unfold sconv. rewrite <- (sum_add _ _ _ _ _ SR). apply sum_ext. intros. ring. Qed.
Lemma sconv_scale_r a b k s : sconv a (fun t => k * b t) s = k * sconv a b s.
Proof. unfold sconv. rewrite <- (sum_mul _ _ _ _ _ SR). apply sum_ext. intros. ring. Qed.
Lemma sconv_scale_l a b k s : sconv (fun t => k * a t) b s = k * sconv a b s.
Proof. unfold sconv. rewrite <- (sum_mul _ _ _ _ _ SR). apply sum_ext. intros. ring. Qed.
Lemma sconv_zero_l b s : sconv (fun _ => zero) b s = zero.
Proof. unfold sconv. apply (sum_zero_ext _ _ _ _ _ SR). intros. ring. Qed.
Lemma sconv_zero_r a s : sconv a (fun _ => zero) s = zero.
Proof. unfold sconv. apply (sum_zero_ext _ _ _ _ _ SR). intros. ring. Qed.
Lemma sconv_sum_r {X} (l : list X) a f s : sconv a (fun t => sum l (fun x => f x t)) s = sum l (fun x => sconv a (f x) s).
Proof.
  induction l as [|x l IH]; [apply sconv_zero_r|]. rewrite sum_cons, <- IH, <- sconv_add_r. reflexivity.
Qed.
Lemma hi_delta n t : hi n delta t = zero.
Proof. unfold hi, delta. pose proof (pow2_pos n). destruct (Nat.eqb_spec (2 ^ n + t) 0); auto; lia. Qed.
Lemma sconv_delta_l n : forall b s, s < 2 ^ n -> sconv delta b s = b s.
Proof.
  induction n as [|n IH]; intros b s Hs.
  - assert (s = 0)%nat by (cbn in Hs; lia). subst. rewrite sconv_0. cbn. ring.
  - destruct (split_lt n s Hs) as [H|(r & -> & H)]; [auto|]. rewrite sconv_hi by auto.
    rewrite (sconv_ext n (hi n delta) (fun _ => zero) b b r), sconv_zero_l, IH by (auto; intros; apply hi_delta). unfold hi. ring.
Qed.
Lemma sconv_delta_r n b s : s < 2 ^ n -> sconv b delta s = b s.
Proof. intros H. rewrite (sconv_comm n) by auto. now apply sconv_delta_l with n. Qed.
Lemma sconv_assoc n : forall a b c s, s < 2 ^ n -> sconv a (sconv b c) s = sconv (sconv a b) c s.
Proof.
  induction n as [|n IH]; intros a b c s Hs.
  - assert (s = 0)%nat by (cbn in Hs; lia). subst. rewrite !sconv_0. ring.
  - destruct (split_lt n s Hs) as [H|(r & -> & H)]; [auto|]. rewrite !sconv_hi by auto.
    rewrite (sconv_ext n a a (hi n (sconv b c)) (fun t => sconv (hi n b) c t + sconv b (hi n c) t) r) by (auto; intros; now apply sconv_hi).
    rewrite (sconv_ext n (hi n (sconv a b)) (fun t => sconv (hi n a) b t + sconv a (hi n b) t) c c r) by (auto; intros; now apply sconv_hi).
    rewrite sconv_add_r, sconv_add_l, !IH by auto. ring.
Qed.
Lemma sconv_swap n a b c s : s < 2 ^ n -> sconv a (sconv b c) s = sconv b (sconv a c) s.
Proof.
  intros H. rewrite !(sconv_assoc n) by auto. apply (sconv_ext n); auto. intros. now apply (sconv_comm n).
Qed.

(** * Sums over partitions *)

Section Cmp.
Variable a : nat -> T.
Definition bprod (l : list nat) : T := fold_right (fun b acc => a b * acc) one l.
Definition cmp (F : nat -> T) (s : nat) : T := sum (partitions s) (fun l => F (length l) * bprod l).
Definition Q (F : nat -> T) (N r : nat) : T :=
  sum (sublists (rev (seq 1 N))) (fun l => if is_partition r l then F (length l) * bprod l else zero).
Definition up (F : nat -> T) (k : nat) : T := F (S k).
Lemma cmp_Q F s : cmp F s = Q F s s.
Proof. unfold cmp, partitions. apply (sum_filter _ _ _ _ _ SR). Qed.
Lemma Q_S F N r : Q F (S N) r = (if subset (S N) r then a (S N) * Q (up F) N (Nat.ldiff r (S N)) else zero) + Q F N r.
Proof.
  unfold Q at 1. rewrite rev_seq_S. cbn [sublists]. rewrite (sum_app _ _ _ _ _ SR), sum_map. f_equal.
  destruct (subset (S N) r) eqn:E.
  - unfold Q. rewrite <- (sum_mul _ _ _ _ _ SR). apply sum_ext. intros l _. rewrite is_partition_cons, E. cbn [andb length bprod fold_right].
    destruct (is_partition (Nat.ldiff r (S N)) l); unfold up, bprod; ring.
  - apply (sum_zero_ext _ _ _ _ _ SR). intros l _. now rewrite is_partition_cons, E.
Qed.
Lemma Q_stop F r m : Q F (r + m) r = Q F r r.
Proof.
  induction m as [|m IH]; [now rewrite Nat.add_0_r|]. rewrite Nat.add_succ_r, Q_S, IH. destruct (subset (S (r + m)) r) eqn:E; [|ring].
  apply subset_le in E. lia.
Qed.
Lemma Q_low n : forall N F s, s < 2 ^ n -> N < 2 ^ n -> Q F N (2 ^ n + s) = zero.
Proof.
  induction N as [|N IH]; intros F s Hs HN.
  - unfold Q. cbn [seq rev sublists RSum.sum fold_right]. unfold is_partition. cbn [pairwise_disjoint fold_right andb]. destruct (Nat.eqb_spec 0 (2 ^ n + s)); [|ring].
    pose proof (pow2_pos n). lia.
  - rewrite Q_S, IH by lia. rewrite ldiff_hi_lo by lia. pose proof (ldiff_le s (S N)). rewrite IH by lia. destruct (subset _ _); ring.
Qed.
Lemma cmp_0 F : cmp F 0 = F 0%nat.
Proof. unfold cmp, bprod. cbn. ring. Qed.
Lemma cmp_hi n F s : s < 2 ^ n -> cmp F (2 ^ n + s) = sconv (hi n a) (cmp (up F)) s.
Proof.
  intros Hs. rewrite cmp_Q. unfold sconv. rewrite (sum_filter _ _ _ _ _ SR).
  assert (G : forall m, (m <= 2 ^ n)%nat -> Q F (2 ^ n - 1 + m)%nat (2 ^ n + s) =
    sum (seq 0 m) (fun t => if subset t s then hi n a t * cmp (up F) (Nat.ldiff s t) else zero)).
  { induction m as [|m IH]; intros Hm; pose proof (pow2_pos n).
    - cbn [seq RSum.sum fold_right]. apply Q_low; lia.
    - rewrite seq_S, (sum_app _ _ _ _ _ SR), <- IH by lia. cbn [RSum.sum fold_right Nat.add]. rewrite Nat.add_succ_r, Q_S, (add_comm _ _ _ _ _ SR). f_equal.
      replace (S (2 ^ n - 1 + m)) with (2 ^ n + m)%nat by lia. rewrite subset_hi_hi, ldiff_hi_hi by lia. destruct (subset m s); [|ring].
      rewrite cmp_Q. pose proof (ldiff_le s m). replace (2 ^ n - 1 + m)%nat with (Nat.ldiff s m + (2 ^ n - 1 + m - Nat.ldiff s m))%nat by lia.
      rewrite Q_stop. unfold hi. ring. }
  rewrite <- G by lia. f_equal. pose proof (pow2_pos n). lia.
Qed.
Lemma cmp_unique G : (forall F, G F 0%nat = F 0%nat) -> (forall F n s, s < 2 ^ n -> G F (2 ^ n + s)%nat = sconv (hi n a) (G (up F)) s) ->
  forall F s, G F s = cmp F s.
Proof.
  intros H0 H1. assert (A : forall n F s, s < 2 ^ n -> G F s = cmp F s).
  { induction n as [|n IH]; intros F s Hs.
    - assert (s = 0)%nat by (cbn in Hs; lia). subst. now rewrite H0, cmp_0.
    - destruct (split_lt n s Hs) as [H|(r & -> & H)]; [auto|]. rewrite H1, cmp_hi by auto. apply (sconv_ext n); auto. }
  intros F s. apply (A s). apply Nat.pow_gt_lin_r. lia.
Qed.
Lemma cmp_ext F F' s : (forall k, F k = F' k) -> cmp F s = cmp F' s.
Proof. intros H. unfold cmp. apply sum_ext. intros l _. now rewrite H. Qed.
Lemma cmp_zero s : cmp (fun _ => zero) s = zero.
Proof. unfold cmp. apply (sum_zero_ext _ _ _ _ _ SR). intros. ring. Qed.
Lemma cmp_exp (E : nat -> T) : E 0%nat = one -> (forall n s, s < 2 ^ n -> E (2 ^ n + s)%nat = sconv (hi n a) E s) -> forall s, E s = cmp (fun _ => one) s.
Proof.
  intros H0 H1. assert (A : forall n s, s < 2 ^ n -> E s = cmp (fun _ => one) s).
  { induction n as [|n IH]; intros s Hs.
    - assert (s = 0)%nat by (cbn in Hs; lia). subst. now rewrite H0, cmp_0.
    - destruct (split_lt n s Hs) as [H|(r & -> & H)]; [auto|]. rewrite H1, cmp_hi by auto. apply (sconv_ext n); auto. }
  intros s. apply (A s). apply Nat.pow_gt_lin_r. lia.
Qed.

(** The sum over the partitions in [k] blocks. *)
Definition pk (k : nat) : nat -> T := cmp (kron zero one k).
Lemma pk_0_0 k : pk k 0 = kron zero one k 0. Proof. apply cmp_0. Qed.
Lemma pk_hi n k s : s < 2 ^ n -> pk (S k) (2 ^ n + s) = sconv (hi n a) (pk k) s.
Proof. intros H. unfold pk. rewrite cmp_hi by auto. apply (sconv_ext n); auto. Qed.
Lemma pk_0_hi n s : s < 2 ^ n -> pk 0 (2 ^ n + s) = zero.
Proof.
  intros H. unfold pk. rewrite cmp_hi by auto. rewrite (sconv_ext n (hi n a) (hi n a) _ (fun _ => zero)), sconv_zero_r; auto. intros t _.
  rewrite (cmp_ext _ (fun _ => zero)), cmp_zero; auto.
Qed.
Lemma pk_0 s : pk 0 s = delta s.
Proof.
  unfold delta. destruct (Nat.eqb_spec s 0) as [->|N]; [rewrite pk_0_0; auto|].
  assert (A : forall n s, s < 2 ^ n -> s <> 0%nat -> pk 0 s = zero).
  { induction n as [|n IH]; intros r Hr Hn; [cbn in Hr; lia|]. destruct (split_lt n r Hr) as [H|(q & -> & H)]; [auto|now apply pk_0_hi]. }
  apply (A s); auto. apply Nat.pow_gt_lin_r. lia.
Qed.
Lemma pk_big n : forall k s, s < 2 ^ n -> (n < k)%nat -> pk k s = zero.
Proof.
  induction n as [|n IH]; intros k s Hs Hk.
  - assert (s = 0)%nat by (cbn in Hs; lia). subst. rewrite pk_0_0. unfold kron. destruct (Nat.eqb_spec k 0); auto; lia.
  - destruct k as [|k]; [lia|]. destruct (split_lt n s Hs) as [H|(r & -> & H)]; [apply IH; auto; lia|]. rewrite pk_hi by auto.
    rewrite (sconv_ext n (hi n a) (hi n a) _ (fun _ => zero)), sconv_zero_r; auto. intros t Ht. apply IH; auto. lia.
Qed.
Notation ofn := (of_nat zero one add).
Lemma ofn_S k : ofn (S k) = ofn k + one. Proof. reflexivity. Qed.
Lemma pk_step (H0 : a 0%nat = zero) n : forall k s, s < 2 ^ n -> sconv a (pk k) s = ofn (S k) * pk (S k) s.
Proof.
  induction n as [|n IH]; intros k s Hs.
  - assert (s = 0)%nat by (cbn in Hs; lia). subst. rewrite sconv_0, H0, !pk_0_0. unfold kron. cbn [Nat.eqb]. ring.
  - destruct (split_lt n s Hs) as [H|(r & -> & H)]; [auto|]. rewrite sconv_hi, pk_hi by auto. destruct k as [|k].
    + rewrite (sconv_ext n a a (hi n (pk 0)) (fun _ => zero)), sconv_zero_r by (auto; intros; now apply pk_0_hi). unfold of_nat. cbn [Nat.iter nat_rect]. ring.
    + rewrite (sconv_ext n a a (hi n (pk (S k))) (sconv (hi n a) (pk k)) r) by (auto; intros; now apply pk_hi).
      rewrite (sconv_swap n) by auto. rewrite (sconv_ext n (hi n a) (hi n a) (sconv a (pk k)) (fun t => ofn (S k) * pk (S k) t) r) by auto.
      rewrite sconv_scale_r, (ofn_S (S k)). ring.
Qed.
Lemma cmp_sum n : forall F s, s < 2 ^ n -> cmp F s = sum (seq 0 (n + 1)%nat) (fun k => F k * pk k s).
Proof.
  induction n as [|n IH]; intros F s Hs.
  - assert (s = 0)%nat by (cbn in Hs; lia). subst. cbn [seq Nat.add RSum.sum fold_right]. rewrite cmp_0, pk_0_0. unfold kron. cbn. ring.
  - rewrite Nat.add_succ_l. destruct (split_lt n s Hs) as [H|(r & -> & H)].
    + rewrite seq_S, (sum_app _ _ _ _ _ SR), <- IH by auto. cbn [RSum.sum fold_right Nat.add]. rewrite (pk_big n) by (auto; lia). ring.
    + rewrite cmp_hi by auto. change (seq 0 (S (n + 1))) with (0%nat :: seq 1 (n + 1)). rewrite sum_cons, pk_0_hi by auto. rewrite <- seq_shift, sum_map.
      rewrite (sconv_ext n (hi n a) (hi n a) _ (fun t => sum (seq 0 (n + 1)) (fun k => up F k * pk k t)) r) by auto.
      rewrite sconv_sum_r. transitivity (sum (seq 0 (n + 1)) (fun k => F (S k) * pk (S k) (2 ^ n + r)%nat)); [|ring].
      apply sum_ext. intros k _. rewrite sconv_scale_r, pk_hi by auto. reflexivity.
Qed.

(** * Powers *)

Fixpoint ffact (k : nat) : T := match k with O => one | S k => ffact k * ofn (S k) end.
Fixpoint spow (k : nat) : nat -> T := match k with O => delta | S k => sconv a (spow k) end.
Lemma spow_pk (H0 : a 0%nat = zero) n : forall k s, s < 2 ^ n -> spow k s = ffact k * pk k s.
Proof.
  induction k as [|k IH]; intros s Hs; cbn [spow ffact]; [rewrite pk_0; ring|].
  rewrite (sconv_ext n a a (spow k) (fun t => ffact k * pk k t) s) by auto. rewrite sconv_scale_r, (pk_step H0 n) by auto. ring.
Qed.
End Cmp.

(** * The logarithm *)

Lemma log_exp (s b f : nat -> T) : s 0%nat = one -> (forall t, b t = (if t =? 0 then zero else opp (s t))) ->
  f 0%nat = zero -> (forall k, f (S k) = opp (ffact k)) -> forall r, cmp (cmp b f) (fun _ => one) r = s r.
Proof.
  intros S0 HB F0 FS r. symmetry. apply cmp_exp; auto. clear r. intros n r Hr.
  assert (B0 : b 0%nat = zero) by now rewrite HB.
  set (G := cmp b (fun k => opp (ffact k))).
  assert (Gs : forall t, t < 2 ^ n -> sconv G s t = opp (delta t)).
  { intros t Ht. assert (ES : forall u, s u = delta u + opp one * b u).
    { intros u. rewrite HB. unfold delta. destruct (Nat.eqb_spec u 0); [subst; rewrite S0|]; ring. }
    rewrite (sconv_ext n G G s (fun u => delta u + opp one * b u) t) by auto. rewrite sconv_add_r, sconv_scale_r, (sconv_delta_r n) by auto.
    rewrite (sconv_comm n) by auto.
    rewrite (sconv_ext n b b G (fun u => sum (seq 0 (n + 1)) (fun k => opp (ffact k) * pk b k u)) t) by (auto; intros; now apply cmp_sum).
    rewrite sconv_sum_r. unfold G. rewrite (cmp_sum b n) by auto.
    transitivity (sum (seq 0 (n + 1)) (fun k => ffact (S k) * pk b (S k) t + opp (ffact k * pk b k t))).
    - rewrite (add_comm _ _ _ _ _ SR). rewrite <- (sum_mul _ _ _ _ _ SR), <- (sum_add _ _ _ _ _ SR). apply sum_ext. intros k _.
      rewrite sconv_scale_r, (pk_step b B0 n) by auto. cbn [ffact]. ring.
    - assert (Tel : forall m, sum (seq 0 m) (fun k => ffact (S k) * pk b (S k) t + opp (ffact k * pk b k t)) = ffact m * pk b m t + opp (pk b 0 t)).
      { induction m as [|m IH]; [cbn [seq RSum.sum fold_right ffact]; ring|]. rewrite seq_S, (sum_app _ _ _ _ _ SR), IH. cbn [RSum.sum fold_right Nat.add]. ring. }
      rewrite Tel, (pk_big b n) by (auto; lia). rewrite pk_0. ring. }
  rewrite (sconv_ext n (hi n (cmp b f)) (sconv (hi n b) G) s s r); auto.
  - rewrite <- (sconv_assoc n) by auto. rewrite (sconv_ext n (hi n b) (hi n b) (sconv G s) (fun t => opp one * delta t) r); auto.
    + rewrite sconv_scale_r, (sconv_delta_r n) by auto. unfold hi. rewrite HB. pose proof (pow2_pos n). destruct (Nat.eqb_spec (2 ^ n + r) 0); [lia|]. ring.
    + intros t Ht. rewrite Gs by auto. ring.
  - intros t Ht. unfold hi at 1. rewrite cmp_hi by auto. apply (sconv_ext n); auto. intros u Hu. apply cmp_ext. intros k. apply FS.
Qed.
End Alg.
