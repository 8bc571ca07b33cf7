(** C18: the portable bit tricks agree with their definitions on bit strings. *)
From Verif Require Import Base BaseLemmas BitModel BitProof.
Local Open Scope Z_scope.
Ltac Zify.zify_post_hook ::= Z.div_mod_to_equations.

(** Counting functions on every 64-bit word, stated on the list of its bits. *)
Theorem C18_counts : forall x, word64 x ->
  popcnt x = ones_count (bits 64 x) /\
  ctz x = run false (bits 64 x) /\
  cto x = run true (bits 64 x) /\
  clz x = Some (run false (rev (bits 64 x))) /\
  clo x = Some (run true (rev (bits 64 x))).
Proof.
  intros x H. repeat split.
  - now apply popcnt_ok.
  - now apply ctz_ok.
  - unfold cto. rewrite ctz_ok by now apply not64_word. rewrite not64_bits by auto. apply run_negb.
  - now apply clz_ok.
  - unfold clo. rewrite clz_ok by now apply not64_word. rewrite not64_bits by auto.
    rewrite <- map_rev. now rewrite run_negb.
Qed.

(** Per-byte helpers on every byte. *)
Theorem C18_bytes : forall b, byte b ->
  ctz8 b = run false (bits 8 b) /\
  clz8 b = Some (run false (rev (bits 8 b))) /\
  (b <> 0 -> log2p1 b = 8 - run false (rev (bits 8 b)) /\ lssb8 b = Some (run false (bits 8 b)) /\ mssb8 b = Some (7 - run false (rev (bits 8 b)))).
Proof.
  intros b Hb.
  assert (K : (ctz8 b =? run false (bits 8 b)) &&
    (match clz8 b with Some c => c =? run false (rev (bits 8 b)) | None => false end) &&
    ((b =? 0) || ((log2p1 b =? 8 - run false (rev (bits 8 b))) && (match lssb8 b with Some c => c =? run false (bits 8 b) | None => false end) &&
      (match mssb8 b with Some c => c =? 7 - run false (rev (bits 8 b)) | None => false end))) = true).
  { revert b Hb. apply all_bytes. vm_compute. reflexivity. }
  destruct (clz8 b), (lssb8 b), (mssb8 b); rewrite ?andb_false_r, ?andb_false_l in K;
    repeat split; try (f_equal; lia); try (exfalso; lia).
Qed.

(** [log2p1] (documented as the number of ones after smearing the highest bit
    to the right) is 1, not 0, on zero; its callers exclude zero. *)
Theorem C18_log2p1_zero_refuted : log2p1 0 = 1 /\ 8 - run false (rev (bits 8 0)) = 0.
Proof. split; reflexivity. Qed.

(** [popcnt_e8] and [summary] work on all eight bytes at once. *)
Theorem C18_bytewise : forall x, word64 x -> forall i, 0 <= i < 8 ->
  let b := (x / 2 ^ (8 * i)) mod 2 ^ 8 in
  (popcnt_e8 x / 2 ^ (8 * i)) mod 2 ^ 8 = ones_count (bits 8 b) /\
  (Z.testbit (summary x) i = true <-> b <> 0) /\ byte (summary x).
Proof.
  intros x H i Hi b. subst b.
  destruct (word8 x H) as (a0 & a1 & a2 & a3 & a4 & a5 & a6 & a7 & -> & F).
  rewrite popcnt_e8_ok by auto. rewrite summary_ok by auto.
  assert (FP : Forall byte (map pc8 [a0; a1; a2; a3; a4; a5; a6; a7])).
  { apply map_bytes; auto. intros b _. pose proof (pc8_bound b). unfold byte. lia. }
  rewrite <- !Z.shiftr_div_pow2 by lia.
  assert (G : exists b, get [a0; a1; a2; a3; a4; a5; a6; a7] (Z.to_nat i) = Some b).
  { apply get_lt. simpl. lia. }
  destruct G as [b G].
  replace (8 * i) with (8 * Z.of_nat (Z.to_nat i)) by lia.
  rewrite (word_byte _ _ _ F G).
  rewrite (word_byte _ _ (pc8 b) FP).
  2:{ rewrite get_map, G. reflexivity. }
  split; [reflexivity|].
  assert (N : forall c, (nz c = 1 /\ c <> 0) \/ (nz c = 0 /\ c = 0)).
  { intros c. unfold nz. destruct (c =? 0) eqn:E; lia. }
  assert (E : Z.testbit (nz a0 + 2 * nz a1 + 4 * nz a2 + 8 * nz a3 + 16 * nz a4 + 32 * nz a5 + 64 * nz a6 + 128 * nz a7) i
     = (nz b =? 1) /\ byte (nz a0 + 2 * nz a1 + 4 * nz a2 + 8 * nz a3 + 16 * nz a4 + 32 * nz a5 + 64 * nz a6 + 128 * nz a7)).
  { clear F FP. assert (I : i = 0 \/ i = 1 \/ i = 2 \/ i = 3 \/ i = 4 \/ i = 5 \/ i = 6 \/ i = 7) by lia.
    unfold byte.
    destruct I as [->|[->|[->|[->|[->|[->|[->| ->]]]]]]]; cbn in G; injection G as <-;
    (destruct (N a0) as [[-> _]|[-> _]]; destruct (N a1) as [[-> _]|[-> _]];
     destruct (N a2) as [[-> _]|[-> _]]; destruct (N a3) as [[-> _]|[-> _]];
     destruct (N a4) as [[-> _]|[-> _]]; destruct (N a5) as [[-> _]|[-> _]];
     destruct (N a6) as [[-> _]|[-> _]]; destruct (N a7) as [[-> _]|[-> _]];
     (split; [reflexivity|split; [discriminate|reflexivity]])). }
  destruct E as [E1 E2]. rewrite E1. split; auto. destruct (N b) as [[-> ?]|[-> ?]]; simpl; intuition congruence.
Qed.

(** [bextr] extracts a bit field. *)
Theorem C18_bextr : forall x s l, word64 x -> 0 <= s < 64 -> 0 <= l ->
  exists y, bextr x s l = Some y /\ word64 y /\
  forall i, 0 <= i < 64 -> Z.testbit y i = (i <? l) && Z.testbit x (s + i).
Proof.
  intros x s l H Hs Hl. unfold bextr. replace (s <? 64) with true by lia.
  eexists; split; [reflexivity|].
  assert (M : (if l <? 64 then u64 (Z.shiftl 1 l) - 1 else 18446744073709551615) = Z.ones (Z.min l 64)).
  { destruct (l <? 64) eqn:E.
    - unfold u64. rewrite Z.shiftl_mul_pow2, Z.mul_1_l by lia. rewrite Z.mod_small.
      + rewrite Z.min_l by lia. rewrite Z.ones_equiv. lia.
      + split; [apply Z.pow_nonneg; lia|apply Z.pow_lt_mono_r; lia].
    - rewrite Z.min_r by lia. reflexivity. }
  rewrite M. split.
  - assert (0 <= Z.shiftr x s <= x).
    { rewrite Z.shiftr_div_pow2 by lia. assert (0 < 2 ^ s) by (apply Z.pow_pos_nonneg; lia).
      unfold word64 in H. split; [apply Z.div_pos; lia|apply Z.div_le_upper_bound; nia]. }
    rewrite Z.land_ones by lia. unfold word64 in *.
    assert (0 < 2 ^ Z.min l 64) by (apply Z.pow_pos_nonneg; lia).
    split; [apply Z.mod_pos_bound; lia|].
    pose proof (Z.mod_le (Z.shiftr x s) (2 ^ Z.min l 64)). lia.
  - intros i Hi. rewrite Z.land_spec, Z.shiftr_spec by lia.
    rewrite Z.testbit_ones by lia. rewrite (Z.add_comm s). rewrite andb_comm. f_equal. lia.
Qed.

(** Reversal, and the functions about powers of two. *)
Theorem C18_reverse : forall x, word64 x ->
  word64 (bit_reverse x) /\ bits 64 (bit_reverse x) = rev (bits 64 x).
Proof. intros; split; [now apply bit_reverse_word|apply bit_reverse_ok]. Qed.

Theorem C18_powers : forall x, word64 x ->
  (has_single_bit x = true <-> exists k, 0 <= k /\ x = 2 ^ k) /\
  (exists n, bit_width x = Some n /\ 0 <= n <= 64 /\ x < 2 ^ n /\ (0 < n -> 2 ^ (n - 1) <= x)) /\
  (0 < x -> exists k, bit_floor x = Some (2 ^ k) /\ 0 <= k < 64 /\ 2 ^ k <= x < 2 ^ (k + 1)) /\
  (x <= 2 ^ 63 -> exists k, bit_ceil x = Some (2 ^ k) /\ 0 <= k < 64 /\ x <= 2 ^ k /\ (0 < k -> 2 ^ (k - 1) < x)).
Proof.
  intros x H. split; [now apply has_single_bit_ok|]. split; [now apply bit_width_ok|].
  unfold word64 in H. split; intros Hx.
  - unfold bit_floor. destruct (x =? 0) eqn:E; [lia|].
    destruct (bit_width_ok x H) as (n & -> & Hn & U & L). cbn [obind].
    assert (0 < n). { destruct (Z.eq_dec n 0) as [->|]; [change (2 ^ 0) with 1 in U; lia|lia]. }
    exists (n - 1). rewrite shl1_ok by lia. split; auto. split; [lia|].
    replace (n - 1 + 1) with n by lia. lia.
  - unfold bit_ceil. destruct (x =? 0) eqn:E.
    + exists 0. split; [reflexivity|]. split; [lia|]. change (2 ^ 0) with 1. lia.
    + unfold u64. rewrite Z.mod_small by lia.
      destruct (bit_width_ok (x - 1)) as (n & -> & Hn & U & L); [unfold word64; lia|]. cbn [obind].
      assert (n < 64).
      { destruct (Z.eq_dec n 64) as [->|]; [|lia]. change (64 - 1) with 63 in L. lia. }
      exists n. rewrite shl1_ok by lia. split; auto. split; [lia|]. split; [lia|]. lia.
Qed.

(** The zero word, and the words above 2^63 where the shift amount of
    [bit_ceil] would be 64. *)
Theorem C18_edges : popcnt 0 = 0 /\ ctz 0 = 64 /\ clz 0 = Some 64 /\ bit_width 0 = Some 0 /\
  bit_floor 0 = Some 0 /\ bit_ceil 0 = Some 1 /\
  forall x, 2 ^ 63 < x < 2 ^ 64 -> bit_ceil x = None.
Proof.
  repeat split; try reflexivity. intros x H. unfold bit_ceil.
  destruct (x =? 0) eqn:E; [lia|]. unfold u64. rewrite Z.mod_small by lia.
  destruct (bit_width_ok (x - 1)) as (n & -> & Hn & U & L); [unfold word64; lia|]. cbn [obind].
  assert (n = 64).
  { destruct (Z.lt_ge_cases n 64); [|lia].
    assert (2 ^ n <= 2 ^ 63) by (apply Z.pow_le_mono_r; lia). lia. }
  subst. reflexivity.
Qed.

Example C18_example :
  popcnt 0x8000F0F000000100 = 10 /\ ctz 0x8000F0F000000100 = 8 /\ clz 0x0000F0F000000100 = Some 16 /\
  bit_reverse 0x8000F0F000000100 = 0x008000000F0F0001 /\ bit_ceil 0x36 = Some 0x40 /\
  bit_floor 0x36 = Some 0x20 /\ has_single_bit 0x21 = false /\ bextr 0xABCD 4 8 = Some 0xBC.
Proof. vm_compute. repeat split; reflexivity. Qed.

Print Assumptions C18_counts.
Print Assumptions C18_bytes.
Print Assumptions C18_bytewise.
Print Assumptions C18_bextr.
Print Assumptions C18_reverse.
Print Assumptions C18_powers.
Print Assumptions C18_edges.
