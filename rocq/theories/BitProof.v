From Verif Require Import Base BaseLemmas BitModel.
Local Open Scope Z_scope.
Ltac Zify.zify_post_hook ::= Z.div_mod_to_equations.

(** ** Splitting bitwise operations *)
Lemma split_eq k x y a b : 0 <= k -> 0 <= a < 2 ^ k ->
  x mod 2 ^ k = a -> Z.shiftr x k = b -> y = a + 2 ^ k * b -> x = y.
Proof.
  intros Hk Ha Hm Hs ->. rewrite Z.shiftr_div_pow2 in Hs by auto.
  pose proof (Z.div_mod x (2 ^ k)). assert (2 ^ k <> 0) by lia. rewrite H by auto. lia.
Qed.

Lemma cat_mod k a b : 0 <= k -> 0 <= a < 2 ^ k -> (a + 2 ^ k * b) mod 2 ^ k = a.
Proof. intros. rewrite Z.mul_comm, Z_mod_plus_full. now apply Z.mod_small. Qed.
Lemma cat_shiftr k a b : 0 <= k -> 0 <= a < 2 ^ k -> Z.shiftr (a + 2 ^ k * b) k = b.
Proof.
  intros. rewrite Z.shiftr_div_pow2 by auto. rewrite Z.mul_comm, Z_div_plus_full by lia.
  rewrite Z.div_small; lia.
Qed.

Lemma land_bound k a c : 0 <= k -> 0 <= a < 2 ^ k -> 0 <= c < 2 ^ k -> 0 <= Z.land a c < 2 ^ k.
Proof.
  intros Hk Ha Hc. assert (0 <= Z.land a c) by (apply Z.land_nonneg; lia). split; auto.
  assert (Z.land a c <= a); [|lia].
  pose proof (Z.ldiff_le (Z.land a c) a). apply H0; [lia|].
  apply Z.bits_inj'. intros n Hn. rewrite Z.ldiff_spec, Z.land_spec, Z.bits_0.
  destruct (Z.testbit a n), (Z.testbit c n); reflexivity.
Qed.

Lemma lor_bound k a c : 0 <= k -> 0 <= a < 2 ^ k -> 0 <= c < 2 ^ k -> 0 <= Z.lor a c < 2 ^ k.
Proof.
  intros Hk Ha Hc. assert (0 <= Z.lor a c) by (apply Z.lor_nonneg; lia). split; auto.
  assert (E : Z.lor a c = Z.lor a c mod 2 ^ k).
  { rewrite <- Z.land_ones by auto. rewrite Z.land_lor_distr_l.
    rewrite !Z.land_ones by auto. now rewrite !Z.mod_small. }
  rewrite E. apply Z.mod_pos_bound. lia.
Qed.

Lemma land_cat k a b c d : 0 <= k -> 0 <= a < 2 ^ k -> 0 <= c < 2 ^ k ->
  Z.land (a + 2 ^ k * b) (c + 2 ^ k * d) = Z.land a c + 2 ^ k * Z.land b d.
Proof.
  intros Hk Ha Hc.
  eapply (@split_eq k); [lia|now apply (@land_bound k a c)| | |reflexivity].
  - rewrite <- Z.land_ones by auto.
    replace (Z.land (Z.land (a + 2 ^ k * b) (c + 2 ^ k * d)) (Z.ones k)) with
      (Z.land (Z.land (a + 2 ^ k * b) (Z.ones k)) (Z.land (c + 2 ^ k * d) (Z.ones k))).
    + rewrite !Z.land_ones by auto. now rewrite !cat_mod.
    + apply Z.bits_inj'; intros n Hn. rewrite !Z.land_spec.
      destruct (Z.testbit (Z.ones k) n); rewrite ?andb_true_r, ?andb_false_r; reflexivity.
  - rewrite Z.shiftr_land. now rewrite !cat_shiftr.
Qed.

Lemma lor_cat k a b c d : 0 <= k -> 0 <= a < 2 ^ k -> 0 <= c < 2 ^ k ->
  Z.lor (a + 2 ^ k * b) (c + 2 ^ k * d) = Z.lor a c + 2 ^ k * Z.lor b d.
Proof.
  intros Hk Ha Hc.
  eapply (@split_eq k); [lia|now apply (@lor_bound k a c)| | |reflexivity].
  - rewrite <- Z.land_ones by auto. rewrite Z.land_lor_distr_l.
    rewrite !Z.land_ones by auto. now rewrite !cat_mod.
  - rewrite Z.shiftr_lor. now rewrite !cat_shiftr.
Qed.

(** ** Words as lists of bytes *)
Definition word (bs : list Z) : Z := fold_right (fun b r => b + 2 ^ 8 * r) 0 bs.
Fixpoint bytes (n : nat) (x : Z) : list Z :=
  match n with O => [] | S n => x mod 2 ^ 8 :: bytes n (x / 2 ^ 8) end.

Lemma word_bytes n x : 0 <= x < 2 ^ (8 * Z.of_nat n) -> word (bytes n x) = x.
Proof.
  revert x; induction n as [|n IH]; intros x H.
  - change (2 ^ (8 * Z.of_nat 0)) with 1 in H. simpl. lia.
  - cbn [bytes word fold_right]. fold (word (bytes n (x / 2 ^ 8))).
    rewrite IH.
    + rewrite Z.add_comm. symmetry. apply Z.div_mod. lia.
    + replace (8 * Z.of_nat (S n)) with (8 + 8 * Z.of_nat n) in H by lia.
      rewrite Z.pow_add_r in H by lia. split; [apply Z.div_pos; lia|].
      apply Z.div_lt_upper_bound; lia.
Qed.
Lemma bytes_range n x : Forall byte (bytes n x).
Proof.
  revert x; induction n; intros; cbn [bytes]; constructor; auto.
  unfold byte. apply Z.mod_pos_bound. lia.
Qed.
Lemma bytes_length n x : length (bytes n x) = n.
Proof. revert x; induction n; intros; simpl; auto. Qed.

Lemma word_bound bs : Forall byte bs -> 0 <= word bs < 2 ^ (8 * Z.of_nat (length bs)).
Proof.
  induction 1 as [|b bs Hb F IH]; [simpl; lia|].
  cbn [word fold_right length]. fold (word bs).
  replace (8 * Z.of_nat (S (length bs))) with (8 + 8 * Z.of_nat (length bs)) by lia.
  rewrite Z.pow_add_r by lia. unfold byte in Hb. nia.
Qed.

(** A property of all bytes by enumeration. *)
Lemma all_bytes (P : Z -> bool) :
  forallb P (map Z.of_nat (seq 0 256)) = true -> forall b, byte b -> P b = true.
Proof.
  intros H b Hb. rewrite forallb_forall in H. apply H.
  apply in_map_iff. exists (Z.to_nat b). unfold byte in Hb. split; [lia|].
  apply in_seq. lia.
Qed.

Definition rep (n : nat) (m : Z) : Z := word (repeat m n).

Lemma map_land m bs : byte m -> Forall byte bs ->
  Z.land (word bs) (rep (length bs) m) = word (map (fun b => Z.land b m) bs).
Proof.
  intros Hm. induction 1 as [|b bs Hb F IH]; [reflexivity|].
  cbn [word fold_right length map repeat rep]. unfold rep in *. cbn [repeat word fold_right].
  fold (word bs). fold (word (repeat m (length bs))). fold (word (map (fun b => Z.land b m) bs)).
  rewrite land_cat by (unfold byte in *; lia). now rewrite IH.
Qed.

Lemma map_lor (f g : Z -> Z) bs : (forall b, byte b -> byte (f b)) -> (forall b, byte b -> byte (g b)) ->
  Forall byte bs ->
  Z.lor (word (map f bs)) (word (map g bs)) = word (map (fun b => Z.lor (f b) (g b)) bs).
Proof.
  intros Hf Hg. induction 1 as [|b bs Hb F IH]; [reflexivity|].
  cbn [word fold_right map].
  fold (word (map f bs)). fold (word (map g bs)). fold (word (map (fun b => Z.lor (f b) (g b)) bs)).
  specialize (Hf _ Hb); specialize (Hg _ Hb). unfold byte in *.
  rewrite lor_cat by lia. now rewrite IH.
Qed.

Lemma map_land_shift m s bs : 0 <= s <= 8 -> 0 <= m < 2 ^ (8 - s) -> Forall byte bs ->
  Z.land (Z.shiftr (word bs) s) (rep (length bs) m) = word (map (fun b => Z.land (Z.shiftr b s) m) bs).
Proof.
  intros Hs Hm. induction 1 as [|b bs Hb F IH]; [now rewrite Z.land_0_r|].
  unfold rep in *. cbn [word fold_right length map repeat].
  fold (word bs). fold (word (repeat m (length bs))).
  fold (word (map (fun b => Z.land (Z.shiftr b s) m) bs)). rewrite <- IH. clear IH.
  pose proof (word_bound _ F) as W. set (w := word bs) in *. set (M := word (repeat m (length bs))).
  unfold byte in Hb. clearbody w M.
  assert (P : 2 ^ 8 = 2 ^ s * 2 ^ (8 - s)) by (rewrite <- Z.pow_add_r by lia; f_equal; lia).
  assert (Ps : 0 < 2 ^ s) by lia. assert (Pt : 0 < 2 ^ (8 - s)) by lia.
  assert (Hbs : 0 <= Z.shiftr b s < 2 ^ (8 - s)).
  { rewrite Z.shiftr_div_pow2 by lia. split; [apply Z.div_pos; lia|]. apply Z.div_lt_upper_bound; lia. }
  assert (Hm8 : 0 <= m < 2 ^ 8) by nia.
  assert (E : Z.shiftr (b + 2 ^ 8 * w) s =
     (Z.shiftr b s + 2 ^ (8 - s) * (w mod 2 ^ s)) + 2 ^ 8 * Z.shiftr w s).
  { rewrite !Z.shiftr_div_pow2 by lia.
    rewrite P at 1. replace (b + 2 ^ s * 2 ^ (8 - s) * w) with (b + (2 ^ (8 - s) * w) * 2 ^ s) by ring.
    rewrite Z.div_add by lia. rewrite P.
    rewrite (Z.div_mod w (2 ^ s)) at 1 by lia. ring. }
  rewrite E.
  assert (Hw : 0 <= w mod 2 ^ s < 2 ^ s) by (apply Z.mod_pos_bound; lia).
  rewrite land_cat.
  - f_equal. replace m with (m + 2 ^ (8 - s) * 0) at 1 by lia.
    rewrite land_cat by lia. rewrite Z.land_0_r. lia.
  - lia.
  - rewrite P. nia.
  - lia.
Qed.

Lemma map_add (f g : Z -> Z) bs : word (map f bs) + word (map g bs) = word (map (fun b => f b + g b) bs).
Proof.
  induction bs as [|b bs IH]; [reflexivity|].
  cbn [word fold_right map]. fold (word (map f bs)) (word (map g bs)) (word (map (fun b => f b + g b) bs)).
  rewrite <- IH. ring.
Qed.

Lemma map_bytes (f : Z -> Z) bs : (forall b, byte b -> byte (f b)) -> Forall byte bs -> Forall byte (map f bs).
Proof. intros H F. apply Forall_map. revert F. apply Forall_impl. auto. Qed.

Lemma u64_id bs : length bs = 8%nat -> Forall byte bs -> u64 (word bs) = word bs.
Proof.
  intros L F. apply word_bound in F. rewrite L in F. apply Z.mod_small.
  change (8 * Z.of_nat 8) with 64 in F. auto.
Qed.

Lemma word_map_ext (f g : Z -> Z) bs : (forall b, byte b -> f b = g b) -> Forall byte bs ->
  word (map f bs) = word (map g bs).
Proof.
  intros H F. f_equal. apply map_ext_in. intros b Hb. apply H. rewrite Forall_forall in F; auto.
Qed.

(** ** popcnt *)
Definition st8 (s m b : Z) : Z := Z.land b m + Z.land (Z.shiftr b s) m.
Definition pc8 (b : Z) : Z := ones_count (bits 8 b).

Lemma stage_ok s m bs : 0 <= s <= 8 -> 0 <= m < 2 ^ (8 - s) -> length bs = 8%nat -> Forall byte bs ->
  (forall b, byte b -> byte (st8 s m b)) ->
  u64 (Z.land (word bs) (rep 8 m) + Z.land (Z.shiftr (word bs) s) (rep 8 m)) = word (map (st8 s m) bs).
Proof.
  intros Hs Hm L F B.
  assert (P : 2 ^ 8 = 2 ^ s * 2 ^ (8 - s)) by (rewrite <- Z.pow_add_r by lia; f_equal; lia).
  assert (0 < 2 ^ s) by lia.
  rewrite <- L. rewrite map_land, map_land_shift; auto; [|unfold byte; nia].
  rewrite map_add. apply u64_id; [now rewrite map_length|].
  now apply map_bytes.
Qed.

Lemma popcnt_e8_ok bs : length bs = 8%nat -> Forall byte bs ->
  popcnt_e8 (word bs) = word (map pc8 bs).
Proof.
  intros L F. unfold popcnt_e8.
  change 0x5555555555555555 with (rep 8 0x55).
  change 0x3333333333333333 with (rep 8 0x33).
  change 0x0F0F0F0F0F0F0F0F with (rep 8 0x0F).
  assert (B1 : forall b, byte b -> byte (st8 1 0x55 b)).
  { intros b Hb. unfold byte.
    enough ((0 <=? st8 1 0x55 b) && (st8 1 0x55 b <? 2 ^ 8) = true) by lia.
    revert b Hb. apply all_bytes. vm_compute. reflexivity. }
  assert (B2 : forall b, byte b -> byte (st8 2 0x33 b)).
  { intros b Hb. unfold byte.
    enough ((0 <=? st8 2 0x33 b) && (st8 2 0x33 b <? 2 ^ 8) = true) by lia.
    revert b Hb. apply all_bytes. vm_compute. reflexivity. }
  assert (B3 : forall b, byte b -> byte (st8 4 0x0F b)).
  { intros b Hb. unfold byte.
    enough ((0 <=? st8 4 0x0F b) && (st8 4 0x0F b <? 2 ^ 8) = true) by lia.
    revert b Hb. apply all_bytes. vm_compute. reflexivity. }
  rewrite stage_ok; auto; [|lia|vm_compute; intuition discriminate].
  rewrite stage_ok; auto; [|lia|vm_compute; intuition discriminate|now rewrite map_length|now apply map_bytes].
  rewrite stage_ok; auto; [|lia|vm_compute; intuition discriminate|now rewrite !map_length|].
  2: now apply map_bytes, map_bytes.
  rewrite !map_map. apply word_map_ext; auto.
  intros b Hb. apply Z.eqb_eq. revert b Hb. apply all_bytes. vm_compute. reflexivity.
Qed.

Lemma pc8_bound b : 0 <= pc8 b <= 8.
Proof.
  unfold pc8. assert (forall l, 0 <= ones_count l <= Z.of_nat (length l)).
  { induction l as [|[] t IH]; cbn [length ones_count]; rewrite ?Nat2Z.inj_succ; lia. }
  specialize (H (bits 8 b)). unfold bits in *. rewrite map_length, seq_length in H. lia.
Qed.

Lemma bits_app n m x : bits (n + m) x = bits n x ++ bits m (Z.shiftr x (Z.of_nat n)).
Proof.
  unfold bits. rewrite seq_app, map_app. f_equal. apply get_ext_len.
  - now rewrite !map_length, !seq_length.
  - intros i Hi. rewrite map_length, seq_length in Hi. rewrite !get_map, !get_seq by lia. simpl.
    rewrite Z.shiftr_spec by lia. do 2 f_equal. lia.
Qed.

Lemma bits_cat n a b : 0 <= a < 2 ^ Z.of_nat n -> bits n (a + 2 ^ Z.of_nat n * b) = bits n a.
Proof.
  intros H. unfold bits. apply map_ext_in. intros i Hi. apply in_seq in Hi.
  assert (E : forall y, Z.testbit (y mod 2 ^ Z.of_nat n) (Z.of_nat i) = Z.testbit y (Z.of_nat i)).
  { intros y. apply Z.mod_pow2_bits_low. lia. }
  rewrite <- (E (a + _)). rewrite cat_mod by lia. reflexivity.
Qed.

Lemma ones_count_app l l' : ones_count (l ++ l') = ones_count l + ones_count l'.
Proof. induction l; simpl; auto. rewrite IHl. lia. Qed.

Lemma count_word bs : Forall byte bs ->
  ones_count (bits (8 * length bs) (word bs)) = fold_right (fun b r => pc8 b + r) 0 bs.
Proof.
  induction 1 as [|b bs Hb F IH]; [reflexivity|].
  cbn [length word fold_right]. fold (word bs).
  replace (8 * S (length bs))%nat with (8 + 8 * length bs)%nat by lia.
  rewrite bits_app, ones_count_app. unfold byte in Hb.
  pose proof (@bits_cat 8 b (word bs) Hb) as EB. change (Z.of_nat 8) with 8 in *. rewrite EB. rewrite cat_shiftr by lia. now rewrite IH.
Qed.

Lemma sum8 a0 a1 a2 a3 a4 a5 a6 a7 :
  0 <= a0 <= 8 -> 0 <= a1 <= 8 -> 0 <= a2 <= 8 -> 0 <= a3 <= 8 ->
  0 <= a4 <= 8 -> 0 <= a5 <= 8 -> 0 <= a6 <= 8 -> 0 <= a7 <= 8 ->
  Z.shiftr (u64 (word [a0; a1; a2; a3; a4; a5; a6; a7] * 0x0101010101010101)) 56
  = a0 + a1 + a2 + a3 + a4 + a5 + a6 + a7.
Proof.
  intros. unfold u64. rewrite Z.shiftr_div_pow2 by lia.
  set (lo := word [a0; a0 + a1; a0 + a1 + a2; a0 + a1 + a2 + a3; a0 + a1 + a2 + a3 + a4;
       a0 + a1 + a2 + a3 + a4 + a5; a0 + a1 + a2 + a3 + a4 + a5 + a6]).
  set (hi := word [a1 + a2 + a3 + a4 + a5 + a6 + a7; a2 + a3 + a4 + a5 + a6 + a7; a3 + a4 + a5 + a6 + a7;
       a4 + a5 + a6 + a7; a5 + a6 + a7; a6 + a7; a7]).
  set (s := a0 + a1 + a2 + a3 + a4 + a5 + a6 + a7).
  replace (word [a0; a1; a2; a3; a4; a5; a6; a7] * 0x0101010101010101) with
    ((lo + s * 2 ^ 56) + hi * 2 ^ 64).
  2: { unfold lo, hi, s, word. cbn [fold_right].
       change (2 ^ 8) with 256. change (2 ^ 56) with 0x100000000000000.
       change (2 ^ 64) with 0x10000000000000000. ring. }
  assert (0 <= lo < 2 ^ 56).
  { unfold lo, word. cbn [fold_right]. change (2 ^ 8) with 256. change (2 ^ 56) with 0x100000000000000. lia. }
  rewrite Z_mod_plus_full, Z.mod_small by (unfold s in *; lia).
  rewrite Z.div_add by lia. rewrite Z.div_small by lia. lia.
Qed.

Lemma word8 x : word64 x -> exists a0 a1 a2 a3 a4 a5 a6 a7,
  x = word [a0; a1; a2; a3; a4; a5; a6; a7] /\ Forall byte [a0; a1; a2; a3; a4; a5; a6; a7].
Proof.
  intros H. pose proof (@word_bytes 8 x H) as E. pose proof (bytes_range 8 x) as F.
  cbn [bytes] in *. do 8 eexists. split; [symmetry; apply E|exact F].
Qed.

Lemma popcnt_ok x : word64 x -> popcnt x = ones_count (bits 64 x).
Proof.
  intros H. destruct (word8 x H) as (a0 & a1 & a2 & a3 & a4 & a5 & a6 & a7 & -> & F).
  unfold popcnt. rewrite popcnt_e8_ok by auto. cbn [map].
  rewrite sum8 by apply pc8_bound.
  change 64%nat with (8 * length [a0; a1; a2; a3; a4; a5; a6; a7])%nat.
  rewrite count_word by auto. cbn [fold_right]. lia.
Qed.

(** ** ctz *)
Lemma low_bit_odd q : Z.land (2 * q + 1) (- (2 * q + 1)) = 1.
Proof.
  apply Z.bits_inj'. intros n Hn. rewrite Z.land_spec.
  replace (- (2 * q + 1)) with (2 * Z.lnot q + 1) by (unfold Z.lnot; lia).
  destruct (Z.eq_dec n 0) as [->|].
  - now rewrite !Z.testbit_odd_0.
  - replace n with (Z.succ (n - 1)) by lia. rewrite !Z.testbit_odd_succ by lia.
    rewrite Z.lnot_spec by lia. rewrite andb_negb_r.
    change 1 with (2 * 0 + 1). rewrite Z.testbit_odd_succ by lia. now rewrite Z.bits_0.
Qed.

Lemma odd_split_nat : forall n x, (Z.to_nat x <= n)%nat -> 0 < x ->
  exists t q, 0 <= t /\ 0 <= q /\ x = 2 ^ t * (2 * q + 1).
Proof.
  induction n as [|n IH]; intros x Hn Hx; [lia|].
  destruct (Z.Even_or_Odd x) as [[y ->]|[y ->]].
  - destruct (IH y) as (t & q & Ht & Hq & ->); [lia|lia|].
    exists (t + 1), q. repeat split; auto; [lia|]. rewrite Z.pow_add_r by lia. lia.
  - exists 0, y. repeat split; lia.
Qed.
Lemma odd_split x : 0 < x -> exists t q, 0 <= t /\ 0 <= q /\ x = 2 ^ t * (2 * q + 1).
Proof. intros; now apply odd_split_nat with (n := Z.to_nat x). Qed.

Lemma low_bit t q : 0 <= t -> Z.land (2 ^ t * (2 * q + 1)) (- (2 ^ t * (2 * q + 1))) = 2 ^ t.
Proof.
  intros Ht. replace (- (2 ^ t * (2 * q + 1))) with ((- (2 * q + 1)) * 2 ^ t) by ring.
  rewrite (Z.mul_comm (2 ^ t)). rewrite <- !Z.shiftl_mul_pow2 by auto.
  rewrite <- Z.shiftl_land, low_bit_odd. rewrite Z.shiftl_mul_pow2 by auto. lia.
Qed.

Lemma land_mod_r x y k : 0 <= k -> 0 <= x < 2 ^ k -> Z.land x (y mod 2 ^ k) = Z.land x y.
Proof.
  intros Hk Hx. rewrite <- Z.land_ones by auto. rewrite (Z.land_comm y), Z.land_assoc.
  rewrite Z.land_ones by auto. now rewrite Z.mod_small.
Qed.

Lemma run_split t q n : (0 <= q) -> (t < n)%nat ->
  run false (bits n (2 ^ Z.of_nat t * (2 * q + 1))) = Z.of_nat t.
Proof.
  intros Hq. revert n; induction t as [|t IH]; intros n Hn.
  - destruct n as [|n]; [lia|]. change (S n) with (1 + n)%nat. rewrite bits_app.
    change (2 ^ Z.of_nat 0) with 1. rewrite Z.mul_1_l.
    cbn [bits seq map app]. change (Z.of_nat 0) with 0. rewrite Z.testbit_odd_0. reflexivity.
  - destruct n as [|n]; [lia|]. change (S n) with (1 + n)%nat. rewrite bits_app.
    replace (2 ^ Z.of_nat (S t) * (2 * q + 1)) with (2 * (2 ^ Z.of_nat t * (2 * q + 1))).
    2:{ rewrite Nat2Z.inj_succ, Z.pow_succ_r by lia. ring. }
    cbn [bits seq map app]. change (Z.of_nat 0) with 0. rewrite Z.testbit_even_0.
    change (Z.of_nat 1) with 1. rewrite <- Z.div2_spec, Z.div2_div.
    rewrite Z.mul_comm, Z.div_mul by lia.
    cbn [run Bool.eqb]. rewrite IH by lia. lia.
Qed.

Lemma ctz_ok x : word64 x -> ctz x = run false (bits 64 x).
Proof.
  intros H. unfold ctz. destruct (Z.eq_dec x 0) as [->|Hx]; [reflexivity|].
  unfold word64 in H. destruct (@odd_split x) as (t & q & Ht & Hq & E); [lia|].
  assert (T64 : t < 64).
  { apply (Z.pow_lt_mono_r_iff 2); [lia|lia|].
    apply Z.le_lt_trans with x; [rewrite E; nia|lia]. }
  unfold u64 at 2. rewrite land_mod_r by lia. rewrite E at 1 2. rewrite low_bit by auto.
  assert (EP : popcnt (u64 (2 ^ t - 1)) = t).
  { apply Z.eqb_eq.
    assert (FA : forallb (fun k => popcnt (u64 (2 ^ (Z.of_nat k) - 1)) =? Z.of_nat k) (seq 0 64) = true)
      by (vm_compute; reflexivity).
    rewrite forallb_forall in FA. rewrite <- (FA (Z.to_nat t)); [now rewrite Z2Nat.id by lia|].
    apply in_seq. lia. }
  rewrite EP, E. replace t with (Z.of_nat (Z.to_nat t)) at 2 by lia. rewrite run_split; lia.
Qed.

Lemma not64_bits x : word64 x -> bits 64 (not64 x) = map negb (bits 64 x).
Proof.
  intros H. unfold bits. rewrite map_map. apply map_ext_in. intros i Hi. apply in_seq in Hi.
  replace (not64 x) with (Z.lnot x + 1 * 2 ^ 64) by (unfold not64, Z.lnot; lia).
  rewrite <- (@Z.mod_pow2_bits_low _ 64) by lia. rewrite Z_mod_plus_full.
  rewrite Z.mod_pow2_bits_low by lia. rewrite Z.lnot_spec by lia. reflexivity.
Qed.
Lemma not64_word x : word64 x -> word64 (not64 x).
Proof. unfold word64, not64. lia. Qed.
Lemma run_negb v l : run v (map negb l) = run (negb v) l.
Proof. induction l as [|[] l IH]; destruct v; simpl in *; auto; now rewrite IH. Qed.

(** ** clz *)
Definition nz (b : Z) : Z := if b =? 0 then 0 else 1.

Lemma summary_ok a0 a1 a2 a3 a4 a5 a6 a7 : Forall byte [a0; a1; a2; a3; a4; a5; a6; a7] ->
  summary (word [a0; a1; a2; a3; a4; a5; a6; a7]) =
  nz a0 + 2 * nz a1 + 4 * nz a2 + 8 * nz a3 + 16 * nz a4 + 32 * nz a5 + 64 * nz a6 + 128 * nz a7.
Proof.
  intros F. set (bs := [a0; a1; a2; a3; a4; a5; a6; a7]) in *.
  unfold summary.
  change 0x8080808080808080 with (rep (length bs) 0x80).
  change 0x7F7F7F7F7F7F7F7F with (rep (length bs) 0x7F).
  rewrite !map_land by (auto; unfold byte; lia).
  assert (BL : forall m, byte m -> forall b, byte b -> byte (Z.land b m)).
  { intros m Hm b Hb. unfold byte in *. apply land_bound; lia. }
  assert (M7 : forall b, byte b -> 0 <= Z.land b 127 < 128).
  { intros b Hb. enough ((0 <=? Z.land b 127) && (Z.land b 127 <? 128) = true) by lia.
    revert b Hb. apply all_bytes. vm_compute. reflexivity. }
  assert (E1 : not64 (u64 (rep (length bs) 128 - word (map (fun b => Z.land b 127) bs))) =
     word (map (fun b => 127 + Z.land b 127) bs)).
  { unfold rep, bs, not64, u64. cbn [map length repeat word fold_right].
    pose proof (Forall_forall byte bs) as FF. destruct FF as [FF _]. specialize (FF F).
    pose proof (M7 a0 (FF a0 ltac:(simpl; tauto))).
    pose proof (M7 a1 (FF a1 ltac:(simpl; tauto))).
    pose proof (M7 a2 (FF a2 ltac:(simpl; tauto))).
    pose proof (M7 a3 (FF a3 ltac:(simpl; tauto))).
    pose proof (M7 a4 (FF a4 ltac:(simpl; tauto))).
    pose proof (M7 a5 (FF a5 ltac:(simpl; tauto))).
    pose proof (M7 a6 (FF a6 ltac:(simpl; tauto))).
    pose proof (M7 a7 (FF a7 ltac:(simpl; tauto))).
    clear FF F M7 BL. clear bs.
    set (y0 := Z.land a0 127) in *; set (y1 := Z.land a1 127) in *; set (y2 := Z.land a2 127) in *;
    set (y3 := Z.land a3 127) in *; set (y4 := Z.land a4 127) in *; set (y5 := Z.land a5 127) in *;
    set (y6 := Z.land a6 127) in *; set (y7 := Z.land a7 127) in *. clearbody y0 y1 y2 y3 y4 y5 y6 y7.
    change (2 ^ 8) with 256. change (2 ^ 64) with 0x10000000000000000.
    rewrite Z.mod_small; lia. }
  rewrite E1.
  assert (BA : forall b, byte b -> byte (127 + Z.land b 127)).
  { intros b Hb. specialize (M7 b Hb). unfold byte; lia. }
  rewrite map_lor; auto; [|intros b Hb; apply BL; auto; unfold byte; lia].
  replace (length bs) with (length (map (fun b => Z.lor (Z.land b 128) (127 + Z.land b 127)) bs)) by apply map_length.
  rewrite map_land; [|unfold byte; lia|].
  2:{ apply map_bytes; auto. intros b Hb. apply lor_bound; [lia| |apply BA; auto].
      apply (BL 128); auto. unfold byte; lia. }
  rewrite map_map.
  rewrite (@word_map_ext _ (fun b => 128 * nz b)); auto.
  2:{ intros b Hb. apply Z.eqb_eq. revert b Hb. apply all_bytes. vm_compute. reflexivity. }
  unfold bs. cbn [map]. unfold nz.
  destruct (a0 =? 0), (a1 =? 0), (a2 =? 0), (a3 =? 0), (a4 =? 0), (a5 =? 0), (a6 =? 0), (a7 =? 0);
    vm_compute; reflexivity.
Qed.

Lemma mssb8_ok b : byte b -> b <> 0 -> mssb8 b = Some (Z.log2 b).
Proof.
  intros Hb Hn. unfold mssb8. destruct (b =? 0) eqn:E; [lia|]. f_equal.
  apply Z.eqb_eq. 
  assert (K : (b =? 0) || (log2p1 b - 1 =? Z.log2 b) = true).
  { revert b Hb Hn E. 
    enough (forall b, byte b -> (b =? 0) || (log2p1 b - 1 =? Z.log2 b) = true) by auto.
    apply all_bytes. vm_compute. reflexivity. }
  rewrite E in K. exact K.
Qed.

Lemma log2_cat k a b : 0 <= k -> 0 <= a < 2 ^ k -> 0 < b -> Z.log2 (a + 2 ^ k * b) = k + Z.log2 b.
Proof.
  intros Hk Ha Hb. apply Z.log2_unique; [pose proof (Z.log2_nonneg b); lia|].
  destruct (Z.log2_spec b Hb) as [L1 L2].
  replace (Z.succ (k + Z.log2 b)) with (k + Z.succ (Z.log2 b)) by lia.
  pose proof (Z.log2_nonneg b).
  rewrite !Z.pow_add_r by lia. nia.
Qed.

Lemma word_log2 bs : word bs <> 0 -> Forall byte bs -> exists i b,
  get bs i = Some b /\ 0 < b /\ Z.log2 (word bs) = 8 * Z.of_nat i + Z.log2 b /\
  forall j c, get bs j = Some c -> (i < j)%nat -> c = 0.
Proof.
  intros H F. induction F as [|b bs Hb F IH]; [now destruct H|].
  cbn [word fold_right] in *. fold (word bs) in *.
  pose proof (word_bound _ F) as W. unfold byte in Hb.
  destruct (Z.eq_dec (word bs) 0) as [E|E].
  - exists 0%nat, b. rewrite E in *. split; auto. split; [lia|]. split; [rewrite Z.mul_0_r, Z.add_0_r; reflexivity|].
    intros [|j] c Hc Hj; [lia|]. simpl in Hc.
    assert (Z0 : forall l, Forall byte l -> word l = 0 -> Forall (fun x => x = 0) l).
    { clear. induction 1 as [|b l Hb F IH]; intros E; constructor.
      - cbn [word fold_right] in E. fold (word l) in E. apply word_bound in F. unfold byte in Hb. lia.
      - apply IH. cbn [word fold_right] in E. fold (word l) in E. apply word_bound in F. unfold byte in Hb. lia. }
    specialize (Z0 _ F E). rewrite Forall_forall in Z0. apply Z0. now apply get_In in Hc.
  - destruct (IH E) as (i & c & G & Hc & L & Z0).
    exists (S i), c. split; auto. split; auto. split.
    + rewrite log2_cat by lia. lia.
    + intros [|j] d Hd Hj; [lia|]. simpl in Hd. apply (Z0 j); auto; lia.
Qed.

Lemma word_byte bs i b : Forall byte bs -> get bs i = Some b ->
  Z.shiftr (word bs) (8 * Z.of_nat i) mod 2 ^ 8 = b.
Proof.
  revert bs; induction i as [|i IH]; intros bs F G; destruct bs as [|a bs]; try discriminate;
    inversion F as [|? ? Ha F']; subst; unfold byte in Ha; cbn [word fold_right]; fold (word bs).
  - injection G as ->. change (8 * Z.of_nat 0) with 0. rewrite Z.shiftr_0_r. now apply cat_mod.
  - simpl in G. replace (8 * Z.of_nat (S i)) with (8 + 8 * Z.of_nat i) by lia.
    rewrite <- Z.shiftr_shiftr by lia. rewrite cat_shiftr by lia. now apply IH.
Qed.

Lemma nz_word_log2 bs i b : get bs i = Some b -> 0 < b ->
  (forall j c, get bs j = Some c -> (i < j)%nat -> c = 0) ->
  let s := fold_right (fun b r => nz b + 2 * r) 0 bs in
  0 < s < 2 ^ Z.of_nat (length bs) /\ Z.log2 s = Z.of_nat i.
Proof.
  revert bs; induction i as [|i IH]; intros [|a bs] G Hb Z0; try discriminate; cbn [fold_right length].
  - injection G as ->.
    assert (E : fold_right (fun b r => nz b + 2 * r) 0 bs = 0).
    { assert (F : Forall (fun c => c = 0) bs).
      { apply Forall_forall. intros c Hc. apply In_get in Hc as (j & _ & Hj). apply (Z0 (S j)); auto; lia. }
      clear -F. induction F as [|c l Hc F IH]; cbn [fold_right]; auto. rewrite IH, Hc. reflexivity. }
    cbv zeta. rewrite E.
    replace (nz b) with 1 by (unfold nz; destruct (b =? 0) eqn:E0; lia).
    rewrite Nat2Z.inj_succ, Z.pow_succ_r by lia.
    assert (0 < 2 ^ Z.of_nat (length bs)) by (apply Z.pow_pos_nonneg; lia).
    split; [lia|reflexivity].
  - destruct (IH bs) as (B1 & B2); auto.
    { intros j c Gc Hj. apply (Z0 (S j)); auto; lia. }
    set (s := fold_right (fun b r => nz b + 2 * r) 0 bs) in *. clearbody s.
    assert (nz a = 0 \/ nz a = 1) by (unfold nz; destruct (a =? 0); auto).
    cbv zeta.
    rewrite !Nat2Z.inj_succ, Z.pow_succ_r by lia. split; [lia|].
    change 2 with (2 ^ 1) at 1. rewrite log2_cat; lia.
Qed.

Lemma clz_log2 x : word64 x -> x <> 0 -> clz x = Some (63 - Z.log2 x).
Proof.
  intros H Hx. destruct (word8 x H) as (a0 & a1 & a2 & a3 & a4 & a5 & a6 & a7 & E & F).
  unfold clz. destruct (x =? 0) eqn:E0; [lia|]. clear E0.
  destruct (@word_log2 _ ltac:(now rewrite <- E) F) as (i & b & G & Hb & L & Z0).
  destruct (nz_word_log2 _ _ _ G Hb Z0) as (B & LG).
  pose proof (summary_ok _ _ _ _ _ _ _ _ F) as SM. rewrite <- E in SM.
  assert (SE : summary x = fold_right (fun b r => nz b + 2 * r) 0 [a0; a1; a2; a3; a4; a5; a6; a7]).
  { rewrite SM. cbn [fold_right]. lia. }
  rewrite <- SE in B, LG. cbn [length] in B.
  rewrite mssb8_ok by (unfold byte; simpl Z.of_nat in B; lia). cbn [obind]. rewrite LG.
  assert (Hi : (i < 8)%nat) by now apply get_some_lt in G.
  unfold bextr. replace (8 <? 64) with true by reflexivity.
  replace (8 * Z.of_nat i <? 64) with true by lia. cbn [obind].
  change (u64 (Z.shiftl 1 8) - 1) with (Z.ones 8). rewrite Z.land_ones by lia.
  rewrite E. rewrite (word_byte _ _ _ F G).
  assert (Bb : byte b).
  { rewrite Forall_forall in F. apply F. now apply get_In in G. }
  rewrite Z.mod_small by apply Bb. rewrite mssb8_ok by (auto; lia). cbn [obind].
  f_equal. rewrite L. lia.
Qed.

Lemma log2_run n : forall x, 0 < x < 2 ^ Z.of_nat n ->
  run false (rev (bits n x)) = Z.of_nat n - 1 - Z.log2 x.
Proof.
  induction n as [|n IH]; intros x Hx; [simpl in Hx; lia|].
  replace (S n) with (n + 1)%nat by lia. rewrite bits_app, rev_app_distr.
  cbn [bits seq map rev app]. change (Z.of_nat 0) with 0.
  rewrite Z.shiftr_spec, Z.add_0_l by lia.
  rewrite Nat2Z.inj_succ, Z.pow_succ_r in Hx by lia.
  fold (bits n x).
  destruct (Z.lt_ge_cases x (2 ^ Z.of_nat n)) as [C|C].
  - assert (T : Z.testbit x (Z.of_nat n) = false).
    { apply Z.bits_above_log2; [lia|]. apply Z.log2_lt_pow2; lia. }
    rewrite T. cbn [run Bool.eqb]. rewrite IH by lia. lia.
  - assert (LG : Z.log2 x = Z.of_nat n).
    { apply Z.log2_unique; [lia|]. rewrite Z.pow_succ_r by lia. lia. }
    assert (T : Z.testbit x (Z.of_nat n) = true) by (rewrite <- LG; apply Z.bit_log2; lia).
    rewrite T. cbn [run Bool.eqb]. lia.
Qed.

Lemma clz_ok x : word64 x -> clz x = Some (run false (rev (bits 64 x))).
Proof.
  intros H. destruct (Z.eq_dec x 0) as [->|Hx]; [reflexivity|].
  rewrite clz_log2 by auto. f_equal. unfold word64 in H.
  rewrite log2_run by (change (Z.of_nat 64) with 64; lia). lia.
Qed.

(** ** bit_reverse *)
Lemma all_idx (P : Z -> Prop) : Forall P (map Z.of_nat (seq 0 64)) -> forall i, 0 <= i < 64 -> P i.
Proof.
  intros H i Hi. rewrite Forall_forall in H. apply H. apply in_map_iff.
  exists (Z.to_nat i). split; [lia|]. apply in_seq. lia.
Qed.

Lemma u64_bits x i : i < 64 -> Z.testbit (u64 x) i = Z.testbit x i.
Proof. intros. apply Z.mod_pow2_bits_low. lia. Qed.

Lemma rev_stage_bits s m1 m2 x i : 0 <= s -> 0 <= i < 64 ->
  Z.testbit (rev_stage s m1 m2 x) i =
  (Z.testbit x (i - s) && Z.testbit m1 (i - s)) || (Z.testbit x (i + s) && Z.testbit m2 (i + s)).
Proof.
  intros Hs Hi. unfold rev_stage. rewrite Z.lor_spec, u64_bits by lia.
  rewrite Z.shiftl_spec, Z.shiftr_spec, !Z.land_spec by lia. reflexivity.
Qed.

Ltac stage_tac :=
  intros x; apply all_idx; cbn [seq map Z.of_nat Pos.of_succ_nat Pos.succ];
  repeat (apply Forall_cons; [rewrite rev_stage_bits by lia;
    match goal with |- context [Z.testbit ?m (?i - ?s)] =>
      idtac end; cbn -[Z.testbit]; 
    repeat match goal with
    | |- context [Z.testbit (Zpos ?m) ?i] =>
        let v := eval vm_compute in (Z.testbit (Zpos m) i) in
        change (Z.testbit (Zpos m) i) with v
    end; rewrite ?andb_true_r, ?andb_false_r, ?orb_false_r, ?orb_false_l; reflexivity|]);
  constructor.

Lemma stage32 : forall x i, 0 <= i < 64 ->
  Z.testbit (rev_stage 32 0x00000000FFFFFFFF 0xFFFFFFFF00000000 x) i = Z.testbit x (Z.lxor i 32).
Proof. stage_tac. Qed.
Lemma stage16 : forall x i, 0 <= i < 64 ->
  Z.testbit (rev_stage 16 0x0000FFFF0000FFFF 0xFFFF0000FFFF0000 x) i = Z.testbit x (Z.lxor i 16).
Proof. stage_tac. Qed.
Lemma stage8 : forall x i, 0 <= i < 64 ->
  Z.testbit (rev_stage 8 0x00FF00FF00FF00FF 0xFF00FF00FF00FF00 x) i = Z.testbit x (Z.lxor i 8).
Proof. stage_tac. Qed.
Lemma stage4 : forall x i, 0 <= i < 64 ->
  Z.testbit (rev_stage 4 0x0F0F0F0F0F0F0F0F 0xF0F0F0F0F0F0F0F0 x) i = Z.testbit x (Z.lxor i 4).
Proof. stage_tac. Qed.
Lemma stage2 : forall x i, 0 <= i < 64 ->
  Z.testbit (rev_stage 2 0x3333333333333333 0xCCCCCCCCCCCCCCCC x) i = Z.testbit x (Z.lxor i 2).
Proof. stage_tac. Qed.
Lemma stage1 : forall x i, 0 <= i < 64 ->
  Z.testbit (rev_stage 1 0x5555555555555555 0xAAAAAAAAAAAAAAAA x) i = Z.testbit x (Z.lxor i 1).
Proof. stage_tac. Qed.

Lemma lxor64 i m : 0 <= i < 64 -> 0 <= m < 64 -> 0 <= Z.lxor i m < 64.
Proof.
  intros Hi Hm. split; [apply Z.lxor_nonneg; lia|].
  change 64 with (2 ^ 6). destruct (Z.eq_dec (Z.lxor i m) 0) as [->|]; [lia|].
  apply Z.log2_lt_pow2; [assert (0 <= Z.lxor i m) by (apply Z.lxor_nonneg; lia); lia|].
  eapply Z.le_lt_trans; [apply Z.log2_lxor; lia|].
  destruct (Z.eq_dec i 0) as [->|], (Z.eq_dec m 0) as [->|]; 
    try (change (Z.log2 0) with 0);
    repeat match goal with |- context [Z.log2 ?x] =>
      lazymatch goal with H : Z.log2 x < 6 |- _ => fail | _ =>
        assert (Z.log2 x < 6) by (apply Z.log2_lt_pow2; lia) end end; lia.
Qed.

Lemma bit_reverse_bits x i : 0 <= i < 64 -> Z.testbit (bit_reverse x) i = Z.testbit x (63 - i).
Proof.
  intros Hi. unfold bit_reverse.
  rewrite stage1, stage2, stage4, stage8, stage16, stage32 by repeat (apply lxor64 || lia).
  f_equal. apply Z.eqb_eq.
  revert i Hi. apply (all_idx (fun i => (Z.lxor (Z.lxor (Z.lxor (Z.lxor (Z.lxor (Z.lxor i 1) 2) 4) 8) 16) 32 =? 63 - i) = true)).
  apply Forall_forall. intros i Hi. 
  assert (FA : forallb (fun i => Z.lxor (Z.lxor (Z.lxor (Z.lxor (Z.lxor (Z.lxor i 1) 2) 4) 8) 16) 32 =? 63 - i) (map Z.of_nat (seq 0 64)) = true) by (vm_compute; reflexivity).
  rewrite forallb_forall in FA. now apply FA.
Qed.

Lemma bit_reverse_ok x : bits 64 (bit_reverse x) = rev (bits 64 x).
Proof.
  apply get_ext_len.
  - rewrite rev_length. unfold bits. now rewrite !map_length.
  - intros i Hi. unfold bits in *. rewrite map_length, seq_length in Hi.
    rewrite get_map, get_seq by lia. simpl option_map.
    rewrite bit_reverse_bits by lia.
    unfold get. rewrite nth_error_nth' with (d := false) by (rewrite rev_length, map_length, seq_length; lia).
    rewrite rev_nth by (rewrite map_length, seq_length; lia).
    rewrite map_length, seq_length.
    rewrite nth_indep with (d' := Z.testbit x (Z.of_nat 0)) by (rewrite map_length, seq_length; lia).
    rewrite (map_nth (fun i => Z.testbit x (Z.of_nat i))). rewrite seq_nth by lia.
    do 2 f_equal. lia.
Qed.

Lemma rev_stage_word s m1 m2 x : 0 <= s -> word64 m2 -> word64 x -> word64 (rev_stage s m1 m2 x).
Proof.
  intros Hs Hm Hx. unfold rev_stage. apply lor_bound; [lia| |].
  - unfold u64. apply Z.mod_pos_bound. lia.
  - assert (B : 0 <= Z.land x m2 < 2 ^ 64) by (apply land_bound; auto; lia).
    rewrite Z.shiftr_div_pow2 by lia. assert (0 < 2 ^ s) by (apply Z.pow_pos_nonneg; lia).
    split; [apply Z.div_pos; lia|].
    apply Z.div_lt_upper_bound; nia.
Qed.

Lemma bit_reverse_word x : word64 x -> word64 (bit_reverse x).
Proof.
  intros H. unfold bit_reverse. repeat (apply rev_stage_word; [lia|unfold word64; lia|]). auto.
Qed.

(** ** Powers of two *)
Lemma clear_low t q : 0 <= t -> 0 <= q ->
  Z.land (2 ^ t * (2 * q + 1)) (2 ^ t * (2 * q + 1) - 1) = 2 ^ t * (2 * q).
Proof.
  intros Ht Hq. assert (0 < 2 ^ t) by (apply Z.pow_pos_nonneg; lia).
  replace (2 ^ t * (2 * q + 1) - 1) with ((2 ^ t - 1) + 2 ^ t * (2 * q)) by ring.
  replace (2 ^ t * (2 * q + 1)) with (0 + 2 ^ t * (2 * q + 1)) at 1 by ring.
  rewrite land_cat by lia. rewrite Z.land_0_l, Z.add_0_l. f_equal.
  replace (2 * q + 1) with (1 + 2 ^ 1 * q) by lia. replace (2 * q) with (0 + 2 ^ 1 * q) by lia.
  rewrite land_cat by lia. rewrite Z.land_0_r, Z.land_diag. reflexivity.
Qed.

Lemma has_single_bit_ok x : word64 x ->
  (has_single_bit x = true <-> exists k, 0 <= k /\ x = 2 ^ k).
Proof.
  intros H. unfold has_single_bit. destruct (x =? 0) eqn:E0; cbn [negb andb].
  - split; [discriminate|]. intros (k & Hk & ->). pose proof (Z.pow_pos_nonneg 2 k). lia.
  - unfold word64 in H. unfold u64. rewrite Z.mod_small by lia.
    destruct (@odd_split x) as (t & q & Ht & Hq & E); [lia|].
    rewrite E at 1 2. rewrite clear_low by auto.
    assert (0 < 2 ^ t) by (apply Z.pow_pos_nonneg; lia). rewrite Z.eqb_eq. split.
    + intros K. exists t. split; auto. nia.
    + intros (k & Hk & Ek). assert (q = 0); [|nia].
      rewrite E in Ek. destruct (Z.lt_ge_cases t k).
      * exfalso. replace k with (t + 1 + (k - t - 1)) in Ek by lia.
        rewrite !Z.pow_add_r in Ek by lia. rewrite <- Z.mul_assoc in Ek.
        apply Z.mul_reg_l in Ek; lia.
      * assert (2 ^ k <= 2 ^ t) by (apply Z.pow_le_mono_r; lia). nia.
Qed.

Lemma bit_width_ok x : word64 x -> exists n, bit_width x = Some n /\ 0 <= n <= 64 /\
  x < 2 ^ n /\ (0 < n -> 2 ^ (n - 1) <= x).
Proof.
  intros H. unfold bit_width. destruct (Z.eq_dec x 0) as [->|Hx].
  - exists 0. split; [reflexivity|]. lia.
  - rewrite clz_log2 by auto. cbn [obind]. eexists; split; [reflexivity|].
    unfold word64 in H. destruct (Z.log2_spec x) as [L1 L2]; [lia|].
    assert (Z.log2 x < 64) by (apply Z.log2_lt_pow2; lia). pose proof (Z.log2_nonneg x).
    replace (64 - (63 - Z.log2 x)) with (Z.succ (Z.log2 x)) by lia.
    split; [lia|]. split; [lia|]. intros _. now replace (Z.succ (Z.log2 x) - 1) with (Z.log2 x) by lia.
Qed.

Lemma shl1_ok k : 0 <= k < 64 -> shl1 k = Some (2 ^ k).
Proof.
  intros H. unfold shl1. replace (k <? 64) with true by lia. unfold u64.
  rewrite Z.shiftl_mul_pow2, Z.mul_1_l by lia. rewrite Z.mod_small; auto.
  split; [apply Z.pow_nonneg; lia|apply Z.pow_lt_mono_r; lia].
Qed.
