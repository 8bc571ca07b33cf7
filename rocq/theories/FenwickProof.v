From Verif Require Import Base BaseLemmas FenwickModel.
From Coq Require Import NArith ZifyN.
Set Implicit Arguments.

(** ** The lowest set bit *)
Definition small (i : nat) := (N.of_nat i < 2^64)%N.

Lemma lowbit_N k m : (2^k * (2*m+1) < 2^64)%N ->
  N.land (2^k*(2*m+1)) ((2^64 - 2^k*(2*m+1)) mod 2^64) = (2^k)%N.
Proof.
  intros H.
  assert (Kp : (0 < 2^k)%N) by (apply N.neq_0_lt_0, N.pow_nonzero; lia).
  assert (K : (k < 64)%N).
  { apply (N.pow_lt_mono_r_iff 2); [lia|]. nia. }
  rewrite N.mod_small by nia.
  set (d := (63 - k)%N).
  assert (E64 : (2^64 = 2^k * (2 * 2^d))%N).
  { rewrite <- N.pow_succ_r', <- N.pow_add_r. f_equal. lia. }
  assert (Hm : (m < 2^d)%N).
  { rewrite E64 in H. apply N.mul_lt_mono_pos_l in H; auto. lia. }
  assert (E : (2^64 - 2^k*(2*m+1) = 2^k * (2*(N.ones d - m) + 1))%N).
  { rewrite N.ones_equiv, E64. rewrite <- N.mul_sub_distr_l. f_equal. lia. }
  rewrite E. rewrite !(N.mul_comm (2^k)), <- !N.shiftl_mul_pow2, <- N.shiftl_land.
  rewrite N.shiftl_mul_pow2. rewrite <- (N.mul_1_l (2^k)) at 2. f_equal.
  assert (L : (N.ones d - m)%N = N.lnot m d).
  { symmetry. destruct (N.eq_dec m 0) as [->|]; [rewrite N.lnot_0_l; lia|]. apply N.lnot_sub_low. apply N.log2_lt_pow2; lia. }
  rewrite L.
  assert (Z : N.land m (N.lnot m d) = 0%N).
  { destruct (N.eq_dec m 0) as [E0|]; [rewrite E0; apply N.land_0_l|]. apply N.land_lnot_diag_low. apply N.log2_lt_pow2; lia. }
  apply N.bits_inj. intros b. rewrite N.land_spec.
  destruct b as [|p].
  - rewrite !N.testbit_odd_0. reflexivity.
  - rewrite <- (N.succ_pred (N.pos p)) by discriminate.
    rewrite !N.testbit_odd_succ by lia. rewrite <- N.land_spec, Z.
    rewrite N.bits_0. destruct (N.pred (N.pos p)); reflexivity.
Qed.

Lemma lowbit_val k m : small (2^k * (2*m+1)) -> lowbit (2^k*(2*m+1)) = 2^k.
Proof.
  unfold small, lowbit. intros H.
  replace (N.of_nat (2^k * (2*m+1))) with (2^(N.of_nat k) * (2*(N.of_nat m)+1))%N in *.
  - rewrite lowbit_N by auto. rewrite <- (Nat2N.id (2^k)). f_equal.
    rewrite Nat2N.inj_pow. reflexivity.
  - rewrite Nat2N.inj_mul, Nat2N.inj_pow. lia.
Qed.

Lemma decompose i : 0 < i -> exists k m, i = 2^k*(2*m+1).
Proof.
  induction i as [i IH] using (well_founded_induction lt_wf). intros Hi.
  destruct (Nat.odd i) eqn:O.
  - exists 0, (Nat.div2 i). apply odd_div2 in O. simpl. lia.
  - apply even_div2 in O. destruct (IH (Nat.div2 i)) as (k & m & E); [lia|lia|].
    exists (S k), m. rewrite Nat.pow_succ_r'. lia.
Qed.

Lemma pow2_pos k : 0 < 2 ^ k.
Proof. apply Nat.neq_0_lt_0, Nat.pow_nonzero. lia. Qed.

Lemma lowbit_bounds i : 0 < i -> small i -> 0 < lowbit i <= i.
Proof.
  intros Hi Hs. destruct (decompose Hi) as (k & m & E). subst i.
  rewrite lowbit_val by auto. pose proof (pow2_pos k). nia.
Qed.

Lemma pow_split a k : a < k -> exists c, 2^k = 2^a * (2 * c) /\ c = 2^(k-a-1).
Proof.
  intros. exists (2^(k-a-1)). split; auto. rewrite <- Nat.pow_succ_r', <- Nat.pow_add_r. f_equal. lia.
Qed.

Lemma lowbit_between j d : 0 < d -> d < lowbit j -> 0 < j -> small (j + d) ->
  lowbit (j + d) = lowbit d /\ lowbit d <= d.
Proof.
  intros Hd Hlt Hj Hs.
  assert (small j) by (unfold small in *; lia).
  assert (small d) by (unfold small in *; lia).
  split; [|apply lowbit_bounds; auto].
  destruct (decompose Hj) as (k & m & Ej). destruct (decompose Hd) as (a & b & Ed).
  subst j. rewrite lowbit_val in Hlt by auto.
  subst d. rewrite (@lowbit_val a) by auto.
  assert (a < k). { apply (Nat.pow_lt_mono_r_iff 2); [lia|]. pose proof (pow2_pos a). nia. }
  destruct (pow_split H1) as (c & Ec & _).
  assert (E : 2^k*(2*m+1) + 2^a*(2*b+1) = 2^a * (2*(c*(2*m+1)+b)+1)).
  { rewrite Ec. ring. }
  rewrite E in *. apply lowbit_val. auto.
Qed.

Lemma lowbit_step j : 0 < j -> small (j + lowbit j) -> 2 * lowbit j <= lowbit (j + lowbit j).
Proof.
  intros Hj Hs. assert (small j) by (unfold small in *; lia).
  destruct (decompose Hj) as (k & m & Ej). subst j. rewrite lowbit_val in * by auto.
  destruct (@decompose (m+1)) as (a & b & E); [lia|].
  replace (2^k*(2*m+1) + 2^k) with (2^(S k + a) * (2*b+1)) in *.
  - rewrite lowbit_val by auto. rewrite Nat.pow_add_r, Nat.pow_succ_r'. pose proof (pow2_pos a). pose proof (pow2_pos k). nia.
  - rewrite Nat.pow_add_r, Nat.pow_succ_r'. 
    transitivity (2 * 2^k * (2^a * (2*b+1))); [ring|]. rewrite <- E. ring.
Qed.

(** [j - 2^a] for [2^a < lowbit j] is a child of [j]. *)
Lemma lowbit_sub j a : 0 < j -> small j -> 2^a < lowbit j -> lowbit (j - 2^a) = 2^a.
Proof.
  intros Hj Hs Ha. destruct (decompose Hj) as (k & m & Ej). subst j. rewrite lowbit_val in Ha by auto.
  assert (a < k). { apply (Nat.pow_lt_mono_r_iff 2); lia. }
  destruct (pow_split H) as (c & Ec & Ec').
  assert (0 < c) by (subst c; apply pow2_pos).
  assert (E : 2^k*(2*m+1) - 2^a = 2^a * (2*(c*(2*m+1) - 1)+1)).
  { rewrite Ec. assert (1 <= c * (2*m+1)) by nia.
    replace (2*(c*(2*m+1)-1)+1) with (2*(c*(2*m+1)) - 1) by lia.
    rewrite Nat.mul_sub_distr_l. f_equal; ring. }
  rewrite E. apply lowbit_val. rewrite <- E. unfold small in *. lia.
Qed.

Lemma lowbit_pow2 i : 0 < i -> small i -> exists k, lowbit i = 2^k.
Proof. intros. destruct (decompose H) as (k & m & ->). exists k. now apply lowbit_val. Qed.

Section Proof.
  Variables (A : Type) (plus minus : A -> A -> A) (zero : A).
  Hypothesis G : agroup_laws plus minus zero.

  Notation S_ xs l r := (lsum plus zero (slice l r xs)).

  Lemma zero_r x : plus x zero = x.
  Proof. rewrite (ag_comm G). apply (ag_zero G). Qed.

  Lemma lsum_app l1 l2 : lsum plus zero (l1 ++ l2) = plus (lsum plus zero l1) (lsum plus zero l2).
  Proof.
    induction l1; simpl.
    - now rewrite (ag_zero G).
    - now rewrite IHl1, (ag_assoc G).
  Qed.

  Lemma S_split xs l m r : l <= m -> m <= r -> S_ xs l r = plus (S_ xs l m) (S_ xs m r).
  Proof. intros. rewrite (@slice_app _ l m r) by auto. apply lsum_app. Qed.
  Lemma S_nil xs l : S_ xs l l = zero.
  Proof. rewrite slice_nil; auto. Qed.
  Lemma S_one xs l x : get xs l = Some x -> S_ xs l (S l) = x.
  Proof. intros. rewrite slice_cons with (x := x) by (auto; lia). rewrite slice_nil by lia. simpl. apply zero_r. Qed.

  (** Adding [v] at position [i]. *)
  Lemma S_lset xs i y v l r : get xs i = Some y -> r <= length xs ->
    S_ (lset xs i (plus y v)) l r = if (l <=? i) && (i <? r) then plus (S_ xs l r) v else S_ xs l r.
  Proof.
    intros E Hr. assert (Hi : i < length xs) by (eapply get_some_lt; eauto).
    assert (Same : forall a b, (b <= i \/ i < a) -> slice a b (lset xs i (plus y v)) = slice a b xs).
    { intros a b Hab. destruct (Nat.le_gt_cases b a); [rewrite !slice_nil; auto|].
      apply get_ext. intros j. unfold slice.
      destruct (Nat.lt_ge_cases j (b - a)).
      - rewrite !get_firstn, !get_skipn by auto. apply get_lset_neq. lia.
      - rewrite !get_none; auto; rewrite firstn_length; lia. }
    destruct (Nat.leb_spec l i), (Nat.ltb_spec i r); simpl; try (rewrite Same; auto; lia).
    rewrite (@S_split _ l i r), (@S_split _ i (S i) r) by lia.
    rewrite (Same l i), (Same (S i) r) by lia.
    rewrite (@S_one (lset xs i (plus y v)) i (plus y v)) by (apply get_lset_eq; auto).
    rewrite (@S_split xs l i r), (@S_split xs i (S i) r) by lia. rewrite (S_one _ _ E).
    rewrite <- !(ag_assoc G). f_equal. f_equal. apply (ag_comm G).
  Qed.

  Definition rep (t xs : list A) :=
    length t = length xs + 1 /\ small (2 * length t) /\
    forall i, 1 <= i <= length xs -> get t i = Some (S_ xs (i - lowbit i) i).

  Lemma small_le i n : i <= n -> small n -> small i.
  Proof. unfold small. lia. Qed.

  Lemma lsum_zeros n : lsum plus zero (repeat zero n) = zero.
  Proof. induction n; simpl; auto. rewrite IHn. apply (ag_zero G). Qed.

  Lemma slice_repeat (x : A) l r n : r <= n -> slice l r (repeat x n) = repeat x (r - l).
  Proof.
    intros. destruct (Nat.le_gt_cases r l).
    - rewrite slice_nil by auto. replace (r - l) with 0 by lia. reflexivity.
    - apply get_ext_len.
      + rewrite slice_length, repeat_length; rewrite ?repeat_length; lia.
      + rewrite slice_length by (rewrite ?repeat_length; lia). intros i Hi. rewrite get_slice by auto. rewrite !get_repeat; auto; lia.
  Qed.

  Lemma rep_new n : small (2 * (n+1)) -> rep (fw_new zero n) (repeat zero n).
  Proof.
    intros H. unfold fw_new, rep. rewrite !repeat_length. repeat split; auto.
    intros i Hi. rewrite get_repeat by lia. rewrite slice_repeat by lia. now rewrite lsum_zeros.
  Qed.

  Lemma sum_correct t xs i : rep t xs -> i < length xs -> fw_sum plus zero t i = Some (S_ xs 0 (S i)).
  Proof.
    intros (L & Sm & H) Hi. unfold fw_sum.
    match goal with |- loop _ ?b _ = _ => set (body := b) end.
    destruct (@loop_rule _ _ (fun '(s, j) => j <= S i /\ s = S_ xs j (S i)) (fun '(s,j) => j)
      (fun s => s = S_ xs 0 (S i)) body) with (fuel := S (S i)) (s := (zero, i+1)) as (x & E & ->); auto.
    - intros (s & j) (Hj & ->). unfold body. destruct (Nat.ltb_spec 0 j).
      + rewrite H by lia. cbn [obind]. eexists; split; [reflexivity|]. cbn beta iota.
        destruct (@lowbit_bounds j) as (P & Q); [lia|apply small_le with (2*length t); auto; lia|].
        split; [|lia]. split; [lia|]. rewrite (@S_split xs (j - lowbit j) j (S i)) by lia. apply (ag_comm G).
      + eexists; split; [reflexivity|]. cbn. replace j with 0 by lia. auto.
    - cbn beta iota. rewrite Nat.add_1_r. rewrite S_nil. auto.
    - lia.
  Qed.

  Lemma range_sum_correct t xs l r : rep t xs -> l <= r -> r <= length xs ->
    fw_range_sum plus minus zero t l r = Some (S_ xs l r).
  Proof.
    intros R Hl Hr. unfold fw_range_sum.
    assert (E : forall k, k <= length xs -> (if 0 <? k then fw_sum plus zero t (k-1) else Some zero) = Some (S_ xs 0 k)).
    { intros k Hk. destruct (Nat.ltb_spec 0 k).
      - rewrite (sum_correct R) by lia. repeat f_equal. lia.
      - replace k with 0 by lia. rewrite S_nil. auto. }
    rewrite !E by lia. cbn [obind]. f_equal. rewrite (@S_split xs 0 l r) by lia. apply (ag_minus G).
  Qed.

  Lemma add_correct t xs i v y : rep t xs -> get xs i = Some y ->
    exists t', fw_add plus t i v = Some t' /\ rep t' (lset xs i (plus y v)).
  Proof.
    intros (L & Sm & H) Ey. assert (Hi : i < length xs) by (eapply get_some_lt; eauto).
    unfold fw_add. set (xs' := lset xs i (plus y v)).
    match goal with |- exists _, loop _ ?b _ = _ /\ _ => set (body := b) end.
    assert (Sm' : forall k, k <= 2 * length t -> small k) by (intros; eapply small_le; eauto).
    apply (@loop_rule _ _ (fun '(t', j) => length t' = length t /\ i < j /\ j <= 2 * length t /\
         j - lowbit j <= i /\
         (forall k, 1 <= k <= length xs -> k < j -> get t' k = Some (S_ xs' (k - lowbit k) k)) /\
         (forall k, j <= k -> get t' k = get t k))
      (fun '(t', j) => length t - j)
      (fun t' => rep t' xs') body).
    - intros (t' & j) (L' & Hij & Hj & Hc & Hlo & Hhi). unfold body.
      destruct (Nat.ltb_spec j (length t')).
      + rewrite Hhi by lia. rewrite H by lia. cbn [obind]. rewrite set_some by lia. cbn [obind].
        eexists; split; [reflexivity|]. cbn beta iota.
        destruct (@lowbit_bounds j) as (P & Q); [lia|apply Sm'; lia|].
        split; [|lia]. rewrite lset_length. repeat split; try lia.
        * pose proof (@lowbit_step j). assert (small (j + lowbit j)) by (apply Sm'; lia). 
          specialize (H1 ltac:(lia) H2). lia.
        * intros k Hk Hkj. destruct (Nat.eq_dec k j) as [->|Hne].
          -- rewrite get_lset_eq by lia. unfold xs'. rewrite S_lset by (auto; lia).
             replace ((j - lowbit j <=? i) && (i <? j)) with true by lia. auto.
          -- rewrite get_lset_neq by lia. destruct (Nat.lt_ge_cases k j); [apply Hlo; lia|].
             rewrite Hhi by lia. rewrite H by lia. f_equal. unfold xs'. rewrite S_lset by (auto; lia).
             destruct (@lowbit_between j (k-j)) as (B1 & B2); [lia|lia|lia|apply Sm'; lia|].
             replace (j + (k-j)) with k in B1 by lia.
             replace ((k - lowbit k <=? i) && (i <? k)) with false by lia. auto.
        * intros k Hk. rewrite get_lset_neq by lia. apply Hhi. lia.
      + eexists; split; [reflexivity|]. cbn beta iota. unfold rep.
        unfold xs' at 1 2. rewrite lset_length. repeat split; [lia|rewrite L'; auto|].
        intros k Hk. apply Hlo; lia.
    - repeat split; try lia.
      + destruct (@lowbit_bounds (i+1)); [lia|apply Sm'; lia|]. lia.
      + intros k Hk Hki. rewrite H by lia. f_equal. unfold xs'. rewrite S_lset by (auto; lia).
        replace ((k - lowbit k <=? i) && (i <? k)) with false by lia. auto.
    - lia.
  Qed.

  Lemma adds_correct h : forall t xs, rep t xs -> (forall i x, In (i, x) h -> i < length xs) ->
    exists t', fw_adds plus t h = Some t' /\ rep t' (list_adds plus xs h).
  Proof.
    induction h as [|(i & x) h IH]; intros t xs R H; simpl.
    - exists t. split; auto.
    - destruct (get_lt xs (i:=i)) as (y & Ey). { apply H with x. now left. }
      destruct (@add_correct t xs i x y R Ey) as (t1 & E & R1).
      unfold fw_adds. simpl. rewrite E. cbn [obind]. unfold list_adds. simpl. rewrite Ey. apply IH; auto.
      intros j z Hj. rewrite lset_length. apply H with z. now right.
  Qed.

  (** The partially filled node [j] before element [i] is processed. *)
  Definition partial_ok (xs : list A) (i j : nat) (v : A) :=
    exists e, j - lowbit j <= e /\ e < j /\ v = S_ xs (j - lowbit j) e /\
      (e = j - lowbit j \/ (0 < e < i /\ e + lowbit e = j)) /\
      (forall c, 0 < c -> e < c < i -> c + lowbit c <> j).

  Lemma pow2_inj a b : 2^a = 2^b -> a = b.
  Proof. intros. apply (Nat.pow_inj_r 2); lia. Qed.

  Lemma partial_self xs i v : 1 <= i -> small i -> partial_ok xs i i v -> v = S_ xs (i - lowbit i) (i-1).
  Proof.
    intros Hi Hs (e & B1 & B2 & -> & C & N).
    destruct (@lowbit_bounds i) as (P & Q); [lia|auto|].
    enough (e = i - 1) by congruence.
    destruct (Nat.eq_dec (lowbit i) 1) as [E1|E1]; [lia|].
    destruct (Nat.eq_dec e (i-1)); auto.
    exfalso. apply (N (i-1)); [lia|lia|].
    assert (X : lowbit (i - 2^0) = 2^0) by (apply lowbit_sub; auto; simpl; lia).
    simpl in X. rewrite X. lia.
  Qed.

  Lemma partial_next xs i v : 1 <= i -> small (2*i) ->
    partial_ok xs i (i + lowbit i) v -> v = S_ xs (i + lowbit i - lowbit (i + lowbit i)) (i - lowbit i).
  Proof.
    intros Hi Hs (e & B1 & B2 & -> & C & N).
    assert (Hsi : small i) by (unfold small in *; lia).
    destruct (@lowbit_bounds i) as (P & Q); [lia|auto|].
    assert (Hsj : small (i + lowbit i)) by (unfold small in *; lia).
    pose proof (@lowbit_step i Hi Hsj) as St.
    destruct (@lowbit_pow2 i) as (a & Ea); auto.
    set (j := i + lowbit i) in *.
    destruct (@lowbit_pow2 j) as (b & Eb); auto; [lia|].
    destruct (@lowbit_bounds j) as (Pj & Qj); [lia|auto|].
    enough (e = i - lowbit i) by congruence.
    assert (Child : 2^(S a) < lowbit j -> lowbit (i - lowbit i) = 2 * lowbit i).
    { intros Hlt. pose proof (@lowbit_sub j (S a)) as X. rewrite Nat.pow_succ_r' in *.
      replace (j - 2 * 2^a) with (i - lowbit i) in X by lia. rewrite X by (auto; lia). lia. }
    rewrite Nat.pow_succ_r' in Child.
    destruct C as [Ce|(Ce1 & Ce2)].
    - destruct (Nat.eq_dec (2 * 2^a) (lowbit j)) as [Ej|Ej]; [lia|].
      exfalso. apply (N (i - lowbit i)); [lia|lia|]. rewrite Child by lia. lia.
    - destruct (@lowbit_pow2 e) as (c & Ec); [lia|apply small_le with i; auto; lia|].
      assert (a < c). { apply (Nat.pow_lt_mono_r_iff 2); lia. }
      destruct (Nat.eq_dec c (S a)) as [->|Hne]; [rewrite Nat.pow_succ_r' in Ec; lia|].
      assert (2 * 2^a < 2^c). { rewrite <- Nat.pow_succ_r'. apply Nat.pow_lt_mono_r; lia. }
      exfalso. apply (N (i - lowbit i)); [lia|lia|]. rewrite Child by lia. lia.
  Qed.

  Lemma build_correct xs : small (4 * (length xs + 1)) ->
    exists t, fw_build plus zero xs = Some t /\ rep t xs.
  Proof.
    intros Hsm. unfold fw_build. set (n := length xs).
    match goal with |- exists _, obind (for_each _ ?b _) _ = _ /\ _ => set (body := b) end.
    assert (Sm' : forall k, k <= 4 * (n + 1) -> small k) by (intros; eapply small_le; eauto).
    destruct (@for_each_rule _ _ (fun don rest '(t, i) => xs = don ++ rest /\ i = S (length don) /\ length t = n + 1 /\
        (forall k, 1 <= k < i -> k <= n -> get t k = Some (S_ xs (k - lowbit k) k)) /\
        (forall j, i <= j <= n -> exists v, get t j = Some v /\ partial_ok xs i j v)) body xs [] (fw_new zero n, 1))
      as ((t & i) & E & EX & Ei & L & H & _).
    - simpl. split; auto. split; auto. split; [apply repeat_length|]. split; [lia|].
      intros j Hj. exists zero. split; [apply get_repeat; lia|].
      destruct (@lowbit_bounds j); [lia|apply Sm'; lia|].
      exists (j - lowbit j). repeat split; try lia. now rewrite S_nil.
    - intros don x rest (t & i) (EX & Ei & L & H & Hp). unfold body.
      assert (Hin : i <= n). { unfold n. rewrite EX, app_length. simpl. lia. }
      assert (Hx : get xs (i-1) = Some x).
      { rewrite EX, get_app_r by lia. replace (i - 1 - length don) with 0 by lia. reflexivity. }
      destruct (Hp i) as (v & Ev & Pv); [lia|].
      assert (Hsi : small i) by (apply Sm'; lia).
      apply partial_self in Pv; [|lia|auto]. subst v.
      destruct (@lowbit_bounds i) as (P & Q); [lia|auto|].
      rewrite Ev. cbn [obind]. rewrite set_some by lia. cbn [obind]. rewrite lset_length.
      assert (Fi : plus (S_ xs (i - lowbit i) (i-1)) x = S_ xs (i - lowbit i) i).
      { rewrite (@S_split xs (i - lowbit i) (i-1) i) by lia. f_equal.
        pose proof (S_one _ _ Hx) as Y. replace (S (i-1)) with i in Y by lia. auto. }
      rewrite Fi. set (t1 := lset t i (S_ xs (i - lowbit i) i)).
      assert (L1 : length t1 = n + 1) by (unfold t1; rewrite lset_length; auto).
      assert (G1 : get t1 i = Some (S_ xs (i - lowbit i) i)) by (apply get_lset_eq; lia).
      set (j := i + lowbit i).
      assert (K : exists t2, (if j <? length t then let* b := get t1 j in let* c := get t1 i in set t1 j (plus b c) else Some t1) = Some t2 /\
         length t2 = n + 1 /\ (forall k, k <> j -> get t2 k = get t1 k) /\
         (j <= n -> get t2 j = Some (S_ xs (j - lowbit j) i))).
      { destruct (Nat.ltb_spec j (length t)).
        - destruct (Hp j) as (v & Ew & Pw); [lia|].
          unfold t1 at 1. rewrite get_lset_neq by lia. rewrite Ew. cbn [obind]. rewrite G1. cbn [obind].
          rewrite set_some by lia. eexists; split; [reflexivity|]. rewrite lset_length. split; auto. split.
          + intros. apply get_lset_neq. auto.
          + intros _. rewrite get_lset_eq by lia.
            apply partial_next in Pw; [|lia|apply Sm'; lia]. fold j in Pw.
            rewrite Pw. f_equal. symmetry. apply S_split; [|lia].
            pose proof (@lowbit_step i). fold j in H1. specialize (H1 ltac:(lia) ltac:(apply Sm'; lia)). lia.
        - eexists; split; [reflexivity|]. split; auto. split; auto. lia. }
      destruct K as (t2 & E2 & L2 & O2 & J2). rewrite E2. cbn [obind].
      eexists; split; [reflexivity|]. cbn beta iota. split; [rewrite EX, <- app_assoc; reflexivity|].
      split; [rewrite app_length; simpl; lia|]. split; auto. split.
      + intros k Hk Hkn. rewrite O2 by lia. destruct (Nat.eq_dec k i) as [->|]; auto.
        unfold t1. rewrite get_lset_neq by lia. apply H; lia.
      + intros k Hk. destruct (@lowbit_bounds k); [lia|apply Sm'; lia|].
        destruct (Nat.eq_dec k j) as [->|Hne].
        * eexists. split; [apply J2; lia|].
          pose proof (@lowbit_step i) as St. fold j in St. specialize (St ltac:(lia) ltac:(apply Sm'; lia)).
          exists i. repeat split; lia.
        * destruct (Hp k) as (v & Ew & e & B1 & B2 & Ee & C & N); [lia|].
          exists v. split. { rewrite O2 by lia. unfold t1. rewrite get_lset_neq by lia. auto. }
          exists e. repeat split; auto.
          -- destruct C; [left; auto|right]. lia.
          -- intros c Hc Hci. destruct (Nat.eq_dec c i) as [->|]; [unfold j in Hne; lia|]. apply N; lia.
    - rewrite E. cbn [obind]. exists t. split; auto. unfold rep. fold n. split; auto. split.
      + rewrite L. apply Sm'. lia.
      + intros k Hk. apply H; try lia. rewrite Ei. simpl. fold n. lia.
  Qed.

  Lemma list_adds_all (xs : list A) : forall pre,
    list_adds plus (pre ++ repeat zero (length xs)) (combine (seq (length pre) (length xs)) xs) = pre ++ xs.
  Proof.
    induction xs as [|x xs IH]; intros pre; [reflexivity|].
    unfold list_adds. simpl. rewrite get_app_r by lia. rewrite Nat.sub_diag. simpl.
    assert (E : lset (pre ++ zero :: repeat zero (length xs)) (length pre) (plus zero x) = (pre ++ [x]) ++ repeat zero (length xs)).
    { rewrite (ag_zero G). clear. induction pre; simpl; f_equal; auto. }
    rewrite E. replace (S (length pre)) with (length (pre ++ [x])) by (rewrite app_length; simpl; lia).
    fold (list_adds plus ((pre ++ [x]) ++ repeat zero (length xs)) (combine (seq (length (pre ++ [x])) (length xs)) xs)).
    rewrite IH, <- app_assoc. reflexivity.
  Qed.

  (** Slot 0 is never touched, so the representation determines the array. *)
  Lemma rep_unique t1 t2 xs : rep t1 xs -> rep t2 xs -> get t1 0 = get t2 0 -> t1 = t2.
  Proof.
    intros (L1 & _ & H1) (L2 & _ & H2) E. apply get_ext_len; [lia|].
    intros [|i] Hi; auto. rewrite H1, H2 by lia. auto.
  Qed.

  Lemma loop_post {X R} (I : X -> Prop) (Q : R -> Prop) (body : X -> option (X + R)) :
    (forall s y, I s -> body s = Some y -> match y with inl s' => I s' | inr r => Q r end) ->
    forall fuel s r, I s -> loop fuel body s = Some r -> Q r.
  Proof.
    intros H. induction fuel; simpl; intros s r Hs E; [discriminate|].
    destruct (body s) as [[s'|r']|] eqn:B; try discriminate.
    - apply IHfuel with s'; auto. apply (H _ _ Hs B).
    - inversion E; subst. apply (H _ _ Hs B).
  Qed.

  Lemma set0 (t t' : list A) i x : 0 < i -> set t i x = Some t' -> get t' 0 = get t 0.
  Proof. intros Hi E. apply set_inv in E. destruct E as (_ & ->). apply get_lset_neq. lia. Qed.

  Lemma add_slot0 t t' i x : fw_add plus t i x = Some t' -> get t' 0 = get t 0.
  Proof.
    unfold fw_add. apply loop_post with (Q := fun r => get r 0 = get t 0) (I := fun '(s, j) => get s 0 = get t 0 /\ 0 < j).
    - intros (s & j) y (Hs & Hj). destruct (j <? length s).
      + destruct (get s j); [|discriminate]. cbn [obind].
        destruct (set s j (plus a x)) eqn:E; [|discriminate]. cbn [obind]. intros Ey; inversion Ey; subst.
        split; [|lia]. rewrite (set0 _ _ Hj E). auto.
      + intros Ey; inversion Ey; subst. auto.
    - split; [auto|lia].
  Qed.

  Lemma adds_slot0 h : forall t t', fw_adds plus t h = Some t' -> get t' 0 = get t 0.
  Proof.
    induction h as [|(i & x) h IH]; intros t t' E.
    - inversion E; auto.
    - unfold fw_adds in E. simpl in E. destruct (fw_add plus t i x) eqn:E1; [|discriminate].
      cbn [obind] in E. rewrite (IH _ _ E). eapply add_slot0; eauto.
  Qed.

  Lemma build_slot0 xs t : fw_build plus zero xs = Some t -> get t 0 = Some zero.
  Proof.
    unfold fw_build.
    match goal with |- obind (for_each _ ?b _) _ = _ -> _ => set (body := b) end.
    assert (K : forall l t i t' i', for_each l body (t, i) = Some (t', i') -> 0 < i -> get t' 0 = get t 0).
    { induction l as [|x l IH]; intros t1 i t' i' E Hi; cbn [for_each] in E.
      - inversion E; auto.
      - destruct (body x (t1, i)) as [(t2 & i2)|] eqn:B; [|discriminate]. cbn [obind] in E.
        unfold body in B. cbn beta iota zeta in B. destruct (get t1 i); [|discriminate]. cbn [obind] in B.
        destruct (set t1 i (plus a x)) as [t3|] eqn:E3; [|discriminate]. cbn [obind] in B.
        destruct (i + lowbit i <? length t3).
        + destruct (get t3 (i + lowbit i)); [|discriminate]. cbn [obind] in B.
          destruct (get t3 i); [|discriminate]. cbn [obind] in B.
          destruct (set t3 (i + lowbit i) (plus a0 a1)) as [t4|] eqn:E4; [|discriminate]. cbn [obind] in B.
          inversion B; subst. rewrite (IH _ _ _ _ E) by lia.
          rewrite (@set0 t3 t2 (i + lowbit i) (plus a0 a1)) by (auto; lia). rewrite (@set0 t1 t3 i (plus a x)); auto.
        + cbn [obind] in B. inversion B; subst. rewrite (IH _ _ _ _ E) by lia. rewrite (@set0 t1 t2 i (plus a x)); auto. }
    destruct (for_each xs body (fw_new zero (length xs), 1)) as [(t1 & i1)|] eqn:E; [|discriminate].
    cbn [obind]. intros Et; inversion Et; subst. rewrite (K _ _ _ _ _ E) by lia.
    unfold fw_new. apply get_repeat. lia.
  Qed.

  Lemma build_is_adds (xs : list A) : (Z.of_nat (length xs) < 2^61)%Z ->
    exists t, fw_build plus zero xs = Some t /\
      fw_adds plus (fw_new zero (length xs)) (combine (seq 0 (length xs)) xs) = Some t.
  Proof.
    intros Hn. destruct (@build_correct xs) as (t & E & R). { unfold small; lia. }
    exists t. split; auto.
    destruct (@adds_correct (combine (seq 0 (length xs)) xs) (fw_new zero (length xs)) (repeat zero (length xs))) as (t2 & E2 & R2).
    - apply rep_new. unfold small; lia.
    - intros i x Hi. rewrite repeat_length. apply in_combine_l in Hi. apply in_seq in Hi. lia.
    - pose proof (list_adds_all xs []) as Q. simpl in Q. rewrite Q in R2.
      rewrite E2. f_equal. apply rep_unique with xs; auto.
      rewrite (adds_slot0 _ _ E2), (build_slot0 _ E). apply get_repeat. lia.
  Qed.
End Proof.

Lemma Z_group : agroup_laws Z.add Z.sub 0%Z.
Proof. split; intros; lia. Qed.

Lemma lor_pow2 q k : Nat.lor (q * 2^(S k)) (2^k) = q * 2^(S k) + 2^k.
Proof.
  assert (Z : Nat.land (q * 2^(S k)) (2^k) = 0).
  { apply Nat.bits_inj. intros b. rewrite Nat.land_spec, Nat.bits_0, Nat.pow2_bits_eqb.
    destruct (Nat.eqb_spec k b); [subst b|now rewrite andb_false_r].
    rewrite Nat.mul_pow2_bits_low by lia. reflexivity. }
  rewrite (Nat.add_nocarry_lxor _ _ Z). symmetry. now apply Nat.lxor_lor.
Qed.

Lemma lower_bound_correct t xs (x : Z) : rep Z.add 0%Z t xs -> (forall v, In v xs -> (0 <= v)%Z) ->
  exists i, fw_lower_bound Z.add 0%Z Z.ltb t x = Some i /\ i <= length xs /\
    (forall j, j < i -> (lsum Z.add 0 (slice 0 (S j) xs) < x)%Z) /\
    (i < length xs -> (x <= lsum Z.add 0 (slice 0 (S i) xs))%Z).
Proof.
  intros (L & Sm & H) Pos. unfold fw_lower_bound, fw_size.
  set (n := length xs) in *. replace (length t - 1) with n by lia.
  set (P k := lsum Z.add 0%Z (slice 0 k xs)).
  assert (Mono : forall a b, a <= b -> b <= n -> (P a <= P b)%Z).
  { intros a b Hab Hbn. unfold P. rewrite (S_split Z_group xs (l:=0) (m:=a) (r:=b)) by lia.
    enough (0 <= lsum Z.add 0 (slice a b xs))%Z by lia.
    assert (forall v, In v (slice a b xs) -> (0 <= v)%Z).
    { intros v Hv. apply Pos. unfold slice in Hv. apply In_get in Hv. destruct Hv as (i & Hi & Ei).
      rewrite firstn_length in Hi. rewrite get_firstn, get_skipn in Ei by lia. eapply get_In; eauto. }
    clear - H0. induction (slice a b xs) as [|v l IH]; simpl; [lia|].
    assert (0 <= lsum Z.add 0 l)%Z by (apply IH; intros; apply H0; now right).
    assert (0 <= v)%Z by (apply H0; now left). lia. }
  match goal with |- exists _, obind (for_down _ _ ?b _) _ = _ /\ _ => set (body := b) end.
  set (bits := N.to_nat (N.size (N.of_nat n))).
  assert (Hbits : n < 2 ^ bits).
  { unfold bits. pose proof (N.size_gt (N.of_nat n)) as X.
    assert (Y : N.of_nat (2 ^ N.to_nat (N.size (N.of_nat n))) = (2 ^ N.size (N.of_nat n))%N).
    { rewrite Nat2N.inj_pow. rewrite N2Nat.id. reflexivity. }
    lia. }
  destruct (@for_down_rule _ (fun k '(ret, s) => exists q, ret = q * 2^k /\ ret <= n /\ s = P ret /\
       (ret = 0 \/ (s < x)%Z) /\ (n < ret + 2^k \/ (x <= P (ret + 2^k)%nat)%Z)) body 0 bits (0, 0%Z)) as ((ret & s) & E & q & _ & Hr & Es & C1 & C2).
  - exists 0. repeat split; try lia. left. exact Hbits.
  - intros k (ret & s) Hk (q & Eq & Hr & Es & C1 & C2). unfold body.
    assert (Ej : Nat.lor ret (2^k) = ret + 2^k) by (rewrite Eq; apply lor_pow2).
    rewrite Ej. set (j := ret + 2^k) in *. rewrite Nat.pow_succ_r' in Eq, C2.
    pose proof (pow2_pos k) as W.
    assert (Nq : ret = 2 * q * 2^k) by nia.
    assert (Nj : j = (2*q+1) * 2^k) by nia.
    destruct (Nat.ltb_spec j (length t)).
    + assert (Lj : lowbit j = 2^k).
      { rewrite Nj, Nat.mul_comm. apply lowbit_val. rewrite Nat.mul_comm, <- Nj. apply small_le with (2*length t); auto; lia. }
      rewrite H by lia. cbn [obind].
      assert (Sj : (s + lsum Z.add 0 (slice (j - lowbit j) j xs))%Z = P j).
      { rewrite Lj. unfold j. replace (ret + 2^k - 2^k) with ret by lia. rewrite Es. unfold P.
        symmetry. apply (S_split Z_group); lia. }
      rewrite Sj. destruct (Z.ltb_spec (P j) x); (eexists; split; [reflexivity|]); cbn beta iota.
      * exists (2*q+1). repeat split; auto; try lia.
        destruct C2 as [C2|C2]; [left; lia|right]. replace (j + 2^k) with (ret + 2 * 2^k) by lia. auto.
      * exists (2*q). repeat split; auto; try lia.
    + eexists; split; [reflexivity|]. cbn beta iota. exists (2*q). repeat split; auto; try lia.
  - rewrite E. cbn [obind]. exists ret. split; auto. split; auto. rewrite Nat.pow_0_r, Nat.add_1_r in C2. split.
    + intros j Hj. destruct C1 as [C1|C1]; [lia|]. fold (P (S j)). pose proof (Mono (S j) ret). lia.
    + intros. destruct C2; [lia|]. auto.
Qed.
