(** Proofs for [find_s] of BvModel.v: comparing seven 9-bit fields with one number by one subtraction *)
From Verif Require Import Base BaseLemmas BitModel BitProof BmapProof BvModel.
Set Implicit Arguments.
Local Open Scope Z_scope.

(** the borrow at bit [p] of a difference *)
Lemma mod_bit x p : 0 <= p -> x mod 2 ^ (p + 1) = x mod 2 ^ p + (if Z.testbit x p then 2 ^ p else 0).
Proof.
  intros Hp. assert (P0 : 0 < 2 ^ p) by (apply Z.pow_pos_nonneg; lia). rewrite Z.pow_add_r by lia. change (2 ^ 1) with 2. rewrite Z.rem_mul_r by lia.
  rewrite Z.testbit_eqb by lia. pose proof (Z.mod_pos_bound (x / 2 ^ p) 2). destruct (Z.eqb_spec ((x / 2 ^ p) mod 2) 1); nia.
Qed.
Lemma mod_lt x p : 0 <= p -> 0 <= x mod 2 ^ p < 2 ^ p.
Proof. intros. apply Z.mod_pos_bound, Z.pow_pos_nonneg; lia. Qed.
Lemma sub_bit x a p : 0 <= p -> Z.testbit (x - a) p = xorb (xorb (Z.testbit x p) (Z.testbit a p)) (x mod 2 ^ p <? a mod 2 ^ p).
Proof.
  intros Hp. assert (P0 : 0 < 2 ^ p) by (apply Z.pow_pos_nonneg; lia).
  pose proof (Z.div_mod x (2 ^ p) ltac:(lia)) as X. pose proof (Z.div_mod a (2 ^ p) ltac:(lia)) as A. pose proof (mod_lt x Hp). pose proof (mod_lt a Hp).
  set (P := 2 ^ p) in *. set (u := x mod P) in *. set (v := a mod P) in *. set (h := x / P) in *. set (k := a / P) in *.
  assert (E : (x - a) / P = h - k - (if u <? v then 1 else 0)).
  { symmetry. destruct (Z.ltb_spec u v); [apply Z.div_unique with (u - v + P)|apply Z.div_unique with (u - v)]; lia. }
  assert (T : forall y, Z.testbit y p = Z.odd (y / P)). { intros y. rewrite <- Z.bit0_odd. unfold P. rewrite <- Z.shiftr_div_pow2 by auto. rewrite Z.shiftr_spec by lia. f_equal. }
  rewrite !T, E. fold h k. rewrite !Z.odd_sub. destruct (u <? v); reflexivity.
Qed.
(** one field: the borrow out of bit [p] *)
Lemma borrow_out x a p : 0 <= p -> 
  (xorb (xorb (Z.testbit x p) (Z.testbit a p)) (Z.testbit (x - a) p) && (negb (Z.testbit x p) || Z.testbit a p)) || (negb (Z.testbit x p) && Z.testbit a p)
  = (x mod 2 ^ (p + 1) <? a mod 2 ^ (p + 1)).
Proof.
  intros Hp. rewrite sub_bit by auto. rewrite (mod_bit x Hp), (mod_bit a Hp). pose proof (mod_lt x Hp). pose proof (mod_lt a Hp). assert (P0 : 0 < 2 ^ p) by (apply Z.pow_pos_nonneg; lia).
  destruct (Z.testbit x p), (Z.testbit a p), (Z.ltb_spec (x mod 2 ^ p) (a mod 2 ^ p)); cbn [xorb negb andb orb]; lia.
Qed.

(** gathering the seven borrows *)
Definition sm := 0x4020100804020100.
Definition spread (t1 t2 t3 t4 t5 t6 t7 : bool) : Z :=
  let f (t : bool) (k : Z) := if t then 2 ^ k else 0 in f t1 62 + f t2 53 + f t3 44 + f t4 35 + f t5 26 + f t6 17 + f t7 8.
Lemma sm_bits n : 0 <= n -> Z.testbit sm n = true -> In n [62; 53; 44; 35; 26; 17; 8].
Proof.
  intros Hn T. destruct (Z.lt_ge_cases n 64) as [L|L].
  - assert (K : forallb (fun n => negb (Z.testbit sm n) || existsb (Z.eqb n) [62; 53; 44; 35; 26; 17; 8]) (map Z.of_nat (seq 0 64)) = true) by (vm_compute; reflexivity).
    rewrite forallb_forall in K. specialize (K n). rewrite T in K. cbn [negb orb] in K. apply existsb_exists in K; [destruct K as (y & Hy & E); apply Z.eqb_eq in E; now subst|].
    apply in_map_iff. exists (Z.to_nat n). split; [lia|apply in_seq; lia].
  - rewrite Z.bits_above_log2 in T; [discriminate|unfold sm; lia|]. change (Z.log2 sm) with 62. lia.
Qed.
Lemma land_spread Y : Z.land Y sm = spread (Z.testbit Y 62) (Z.testbit Y 53) (Z.testbit Y 44) (Z.testbit Y 35) (Z.testbit Y 26) (Z.testbit Y 17) (Z.testbit Y 8).
Proof.
  assert (K : forall t1 t2 t3 t4 t5 t6 t7, let s := spread t1 t2 t3 t4 t5 t6 t7 in Z.land s sm = s /\ Z.testbit s 62 = t1 /\ Z.testbit s 53 = t2 /\ Z.testbit s 44 = t3 /\ Z.testbit s 35 = t4 /\ Z.testbit s 26 = t5 /\ Z.testbit s 17 = t6 /\ Z.testbit s 8 = t7).
  { intros t1 t2 t3 t4 t5 t6 t7. destruct t1, t2, t3, t4, t5, t6, t7; vm_compute; repeat split. }
  destruct (K (Z.testbit Y 62) (Z.testbit Y 53) (Z.testbit Y 44) (Z.testbit Y 35) (Z.testbit Y 26) (Z.testbit Y 17) (Z.testbit Y 8)) as (E & T1 & T2 & T3 & T4 & T5 & T6 & T7).
  set (s := spread _ _ _ _ _ _ _) in *. rewrite <- E. clear K. apply Z.bits_inj'. intros n Hn. rewrite !Z.land_spec. destruct (Z.testbit sm n) eqn:T; [|now rewrite !andb_false_r]. rewrite !andb_true_r.
  apply sm_bits in T; auto. repeat (destruct T as [<-|T]; [now symmetry|]). destruct T.
Qed.
Lemma gather7 t1 t2 t3 t4 t5 t6 t7 : Z.shiftr (u64 (spread t1 t2 t3 t4 t5 t6 t7 * 0x0001010101010101)) (64 - 1 - 7) =
  fold_left (fun r (b : bool) => (if b then 1 else 0) + 2 * r) [t1; t2; t3; t4; t5; t6; t7] 0.
Proof. destruct t1, t2, t3, t4, t5, t6, t7; vm_compute; reflexivity. Qed.

(** the fields, most significant first *)
Definition fields (l : list Z) : Z := fold_left (fun r a => a + 2 ^ 9 * r) l 0.

Lemma tbit x a p : 0 <= p < 64 -> word64 x -> word64 a ->
  Z.testbit (Z.lor (Z.land (Z.lxor (Z.lxor x a) (u64 (x - a))) (Z.lor (not64 x) a)) (Z.land (not64 x) a)) p = (x mod 2 ^ (p + 1) <? a mod 2 ^ (p + 1)).
Proof.
  intros Hp Hx Ha. rewrite Z.lor_spec, !Z.land_spec, !Z.lxor_spec, Z.lor_spec, u64_bits by lia.
  assert (N : Z.testbit (not64 x) p = negb (Z.testbit x p)). { pose proof (@not64_bit x (Z.to_nat p) ltac:(lia)) as Q. now rewrite Z2Nat.id in Q by lia. }
  rewrite N. apply borrow_out. lia.
Qed.

Lemma y_eq x a : word64 x -> word64 a ->
  Z.lor (Z.land (Z.lxor (Z.lxor x a) (u64 (x - a))) (Z.land (Z.lor (not64 x) a) sm)) (Z.land (Z.land (not64 x) a) sm) =
  spread (x mod 2 ^ 63 <? a mod 2 ^ 63) (x mod 2 ^ 54 <? a mod 2 ^ 54) (x mod 2 ^ 45 <? a mod 2 ^ 45) (x mod 2 ^ 36 <? a mod 2 ^ 36)
    (x mod 2 ^ 27 <? a mod 2 ^ 27) (x mod 2 ^ 18 <? a mod 2 ^ 18) (x mod 2 ^ 9 <? a mod 2 ^ 9).
Proof.
  intros Hx Ha. rewrite Z.land_assoc, <- Z.land_lor_distr_l. rewrite land_spread. rewrite !tbit by (auto; lia). reflexivity.
Qed.

Lemma lor1 x : Z.lor (u64 (Z.shiftl x 1)) 1 = u64 (2 * x) + 1.
Proof.
  rewrite Z.shiftl_mul_pow2 by lia. change (2 ^ 1) with 2. rewrite Z.mul_comm. unfold u64. change (2 ^ 64) with (2 * 2 ^ 63). rewrite Z.mul_mod_distr_l by lia.
  set (y := x mod 2 ^ 63). replace (2 * y) with (0 + 2 ^ 1 * y) by lia. replace 1 with (1 + 2 ^ 1 * 0) at 2 by lia. rewrite lor_cat by lia. rewrite Z.lor_0_l, Z.lor_0_r. change (2 ^ 1) with 2. lia.
Qed.
Lemma clz_between z c : 0 <= c < 64 -> 0 < z -> 2 ^ (63 - c) <= z < 2 ^ (64 - c) -> clz z = Some c.
Proof.
  intros Hc Hz B. assert (2 ^ (64 - c) <= 2 ^ 64) by (apply Z.pow_le_mono_r; lia). rewrite clz_log2 by (unfold word64; lia). f_equal.
  assert (Z.log2 z = 63 - c); [|lia]. apply Z.log2_unique; [lia|]. replace (Z.succ (63 - c)) with (64 - c) by lia. auto.
Qed.
(** the value of [clz] divided by 9 *)
Lemma clz_div z j : 0 <= j < 7 -> 2 ^ (54 - 9 * j) <= z < 2 ^ (63 - 9 * j) -> exists c, clz z = Some c /\ (if c =? 0 then 0 else (c - 1) / 9) = j.
Proof.
  intros Hj B. assert (P : 0 < 2 ^ (54 - 9 * j)) by (apply Z.pow_pos_nonneg; lia). assert (2 ^ (63 - 9 * j) <= 2 ^ 63) by (apply Z.pow_le_mono_r; lia).
  rewrite clz_log2 by (unfold word64; lia). exists (63 - Z.log2 z). split; auto.
  assert (L1 : 54 - 9 * j <= Z.log2 z). { rewrite <- (Z.log2_pow2 (54 - 9 * j)) by lia. apply Z.log2_le_mono. lia. }
  assert (L2 : Z.log2 z < 63 - 9 * j) by (apply Z.log2_lt_pow2; lia).
  destruct (Z.eqb_spec (63 - Z.log2 z) 0); [lia|]. symmetry. apply Z.div_unique with (63 - Z.log2 z - 1 - 9 * j); lia.
Qed.

Lemma neg_mod d P : u64 ((u64 (2 * not64 (u64 d)) + 1) * P) = u64 ((- 2 * d - 1) * P).
Proof.
  unfold u64, not64. pose proof (Z.div_mod d (2 ^ 64) ltac:(lia)) as D. set (q1 := d / 2 ^ 64) in *. set (r := d mod 2 ^ 64) in *.
  pose proof (Z.div_mod (2 * (2 ^ 64 - 1 - r)) (2 ^ 64) ltac:(lia)) as D2. set (q2 := 2 * (2 ^ 64 - 1 - r) / 2 ^ 64) in *. set (r2 := (2 * (2 ^ 64 - 1 - r)) mod 2 ^ 64) in *.
  replace ((r2 + 1) * P) with ((- 2 * d - 1) * P + ((2 + 2 * q1 - q2) * P) * 2 ^ 64) by nia. apply Z_mod_plus_full.
Qed.
Lemma find_core m a e j D hi : word64 a -> 0 <= m - 1 <= 511 -> 0 <= e <= 6 -> 0 <= j < 7 ->
  let x := (m - 1) * 0x0040201008040201 in
  fold_left (fun r (b : bool) => (if b then 1 else 0) + 2 * r)
   [x mod 2 ^ 63 <? a mod 2 ^ 63; x mod 2 ^ 54 <? a mod 2 ^ 54; x mod 2 ^ 45 <? a mod 2 ^ 45; x mod 2 ^ 36 <? a mod 2 ^ 36;
    x mod 2 ^ 27 <? a mod 2 ^ 27; x mod 2 ^ 18 <? a mod 2 ^ 18; x mod 2 ^ 9 <? a mod 2 ^ 9] 0 = 2 ^ (7 - e) - 1 ->
  a - x = D + hi * 2 ^ (63 - 9 * e) -> 2 ^ (54 - 9 * j) <= 2 ^ (9 * e) * (2 * D - 1) < 2 ^ (63 - 9 * j) ->
  find_s m a = Some (e + j).
Proof.
  intros Ha Hm He Hj x Hy Hd Hb. unfold find_s. assert (Hx : word64 x) by (unfold word64, x; lia).
  replace (u64 ((m - 1) * 0x0040201008040201)) with x by (unfold u64; rewrite Z.mod_small; [reflexivity|exact Hx]).
  fold sm. rewrite y_eq by auto. rewrite gather7, Hy.
  assert (C : clz8 ((2 ^ (7 - e) - 1) mod 2 ^ 8) = Some (e + 1)).
  { assert (e = 0 \/ e = 1 \/ e = 2 \/ e = 3 \/ e = 4 \/ e = 5 \/ e = 6) as Q by lia. destruct Q as [Q|[Q|[Q|[Q|[Q|[Q|Q]]]]]]; rewrite Q; vm_compute; reflexivity. }
  rewrite C. cbn [obind]. replace (e + 1 - 1) with e by lia. destruct (Z.leb_spec 0 e); [|lia]. cbn [guard obind].
  rewrite lor1. rewrite Z.shiftl_mul_pow2 by lia. rewrite neg_mod.
  replace ((- 2 * (x - a) - 1) * 2 ^ (9 * e)) with (2 ^ (9 * e) * (2 * D - 1) + hi * 2 ^ 64).
  2:{ replace (- 2 * (x - a) - 1) with (2 * (a - x) - 1) by lia. rewrite Hd. replace (2 ^ 64) with (2 ^ (63 - 9 * e) * 2 ^ (9 * e) * 2) by (rewrite <- Z.pow_add_r by lia; replace (63 - 9 * e + 9 * e) with 63 by lia; reflexivity). ring. }
  assert (2 ^ (63 - 9 * j) <= 2 ^ 63) by (apply Z.pow_le_mono_r; lia). assert (0 < 2 ^ (54 - 9 * j)) by (apply Z.pow_pos_nonneg; lia).
  unfold u64. rewrite Z_mod_plus_full. rewrite Z.mod_small by lia. destruct (clz_div Hj Hb) as (c & -> & <-). reflexivity.
Qed.
Lemma find_full m a : word64 a -> 0 <= m - 1 <= 511 ->
  let x := (m - 1) * 0x0040201008040201 in
  fold_left (fun r (b : bool) => (if b then 1 else 0) + 2 * r)
   [x mod 2 ^ 63 <? a mod 2 ^ 63; x mod 2 ^ 54 <? a mod 2 ^ 54; x mod 2 ^ 45 <? a mod 2 ^ 45; x mod 2 ^ 36 <? a mod 2 ^ 36;
    x mod 2 ^ 27 <? a mod 2 ^ 27; x mod 2 ^ 18 <? a mod 2 ^ 18; x mod 2 ^ 9 <? a mod 2 ^ 9] 0 = 0 ->
  find_s m a = Some 7.
Proof.
  intros Ha Hm x Hy. unfold find_s. assert (Hx : word64 x) by (unfold word64, x; lia).
  replace (u64 ((m - 1) * 0x0040201008040201)) with x by (unfold u64; rewrite Z.mod_small; [reflexivity|exact Hx]).
  fold sm. rewrite y_eq by auto. rewrite gather7, Hy. change (clz8 (0 mod 2 ^ 8)) with (Some 8). cbn [obind]. change (8 - 1) with 7. change (0 <=? 7) with true. cbn [guard obind].
  rewrite lor1. rewrite Z.shiftl_mul_pow2 by lia.
  set (w := not64 (u64 (x - a))). unfold u64 at 2. pose proof (Z.div_mod (2 * w) (2 ^ 64) ltac:(lia)) as D. assert (E : (2 * w) mod 2 ^ 64 = 2 * (w mod 2 ^ 63)). { change (2 ^ 64) with (2 * 2 ^ 63). apply Z.mul_mod_distr_l; lia. }
  rewrite E. replace ((2 * (w mod 2 ^ 63) + 1) * 2 ^ (9 * 7)) with (2 ^ 63 + (w mod 2 ^ 63) * 2 ^ 64) by (change (2 ^ (9 * 7)) with (2 ^ 63); change (2 ^ 64) with (2 * 2 ^ 63); ring).
  unfold u64. rewrite Z_mod_plus_full. reflexivity.
Qed.

(** comparing field by field *)
Lemma lex B p q r s : 0 <= p < B -> 0 <= q < B -> (p + B * r <? q + B * s) = (r <? s) || ((r =? s) && (p <? q)).
Proof. intros. destruct (Z.ltb_spec r s), (Z.eqb_spec r s), (Z.ltb_spec p q), (Z.ltb_spec (p + B * r) (q + B * s)); cbn [andb orb]; auto; nia. Qed.
Lemma lo_mod x c h k : 0 <= k -> 0 <= c < 2 ^ k -> x = c + 2 ^ k * h -> x mod 2 ^ k = c.
Proof. intros Hk Hc ->. now apply cat_mod. Qed.
Lemma cmp_fields v a1 a2 a3 a4 a5 a6 a7 x a : 0 <= v < 512 -> 0 <= a1 < 512 -> 0 <= a2 < 512 -> 0 <= a3 < 512 -> 0 <= a4 < 512 -> 0 <= a5 < 512 -> 0 <= a6 < 512 -> 0 <= a7 < 512 ->
  x = v * 0x0040201008040201 -> a = fields [a1; a2; a3; a4; a5; a6; a7] ->
  let t7 := v <? a7 in
  let t6 := (v <? a6) || ((v =? a6) && t7) in
  let t5 := (v <? a5) || ((v =? a5) && t6) in
  let t4 := (v <? a4) || ((v =? a4) && t5) in
  let t3 := (v <? a3) || ((v =? a3) && t4) in
  let t2 := (v <? a2) || ((v =? a2) && t3) in
  let t1 := (v <? a1) || ((v =? a1) && t2) in
  [x mod 2 ^ 63 <? a mod 2 ^ 63; x mod 2 ^ 54 <? a mod 2 ^ 54; x mod 2 ^ 45 <? a mod 2 ^ 45; x mod 2 ^ 36 <? a mod 2 ^ 36;
    x mod 2 ^ 27 <? a mod 2 ^ 27; x mod 2 ^ 18 <? a mod 2 ^ 18; x mod 2 ^ 9 <? a mod 2 ^ 9] = [t1; t2; t3; t4; t5; t6; t7].
Proof.
  intros Hv H1 H2 H3 H4 H5 H6 H7 Ex Ea.
  assert (K : forall u1 u2 u3 u4 u5 u6 u7 z, 0 <= u1 < 512 -> 0 <= u2 < 512 -> 0 <= u3 < 512 -> 0 <= u4 < 512 -> 0 <= u5 < 512 -> 0 <= u6 < 512 -> 0 <= u7 < 512 -> z = fields [u1; u2; u3; u4; u5; u6; u7] ->
    let l7 := u7 in let l6 := l7 + 2 ^ 9 * u6 in let l5 := l6 + 2 ^ 18 * u5 in let l4 := l5 + 2 ^ 27 * u4 in let l3 := l4 + 2 ^ 36 * u3 in let l2 := l3 + 2 ^ 45 * u2 in let l1 := l2 + 2 ^ 54 * u1 in
    (z mod 2 ^ 9 = l7 /\ 0 <= l7 < 2 ^ 9) /\ (z mod 2 ^ 18 = l6 /\ 0 <= l6 < 2 ^ 18) /\ (z mod 2 ^ 27 = l5 /\ 0 <= l5 < 2 ^ 27) /\ (z mod 2 ^ 36 = l4 /\ 0 <= l4 < 2 ^ 36) /\ (z mod 2 ^ 45 = l3 /\ 0 <= l3 < 2 ^ 45) /\ (z mod 2 ^ 54 = l2 /\ 0 <= l2 < 2 ^ 54) /\ z mod 2 ^ 63 = l1).
  { clear. intros u1 u2 u3 u4 u5 u6 u7 z H1 H2 H3 H4 H5 H6 H7 E l7 l6 l5 l4 l3 l2 l1.
    assert (B6 : 0 <= l6 < 2 ^ 18) by (unfold l6, l7; clear - H6 H7; lia).
    assert (B5 : 0 <= l5 < 2 ^ 27) by (unfold l5; clear - B6 H5; lia).
    assert (B4 : 0 <= l4 < 2 ^ 36) by (unfold l4; clear - B5 H4; lia).
    assert (B3 : 0 <= l3 < 2 ^ 45) by (unfold l3; clear - B4 H3; lia).
    assert (B2 : 0 <= l2 < 2 ^ 54) by (unfold l2; clear - B3 H2; lia).
    assert (B1 : 0 <= l1 < 2 ^ 63) by (unfold l1; clear - B2 H1; lia).
    assert (E1 : z = l1 + 2 ^ 63 * 0) by (rewrite E; unfold l1, l2, l3, l4, l5, l6, l7, fields; cbn [fold_left]; ring).
    assert (E2 : z = l2 + 2 ^ 54 * u1) by (rewrite E1; unfold l1; ring).
    assert (E3 : z = l3 + 2 ^ 45 * (u2 + 2 ^ 9 * u1)) by (rewrite E2; unfold l2; ring).
    assert (E4 : z = l4 + 2 ^ 36 * (u3 + 2 ^ 9 * (u2 + 2 ^ 9 * u1))) by (rewrite E3; unfold l3; ring).
    assert (E5 : z = l5 + 2 ^ 27 * (u4 + 2 ^ 9 * (u3 + 2 ^ 9 * (u2 + 2 ^ 9 * u1)))) by (rewrite E4; unfold l4; ring).
    assert (E6 : z = l6 + 2 ^ 18 * (u5 + 2 ^ 9 * (u4 + 2 ^ 9 * (u3 + 2 ^ 9 * (u2 + 2 ^ 9 * u1))))) by (rewrite E5; unfold l5; ring).
    assert (E7 : z = l7 + 2 ^ 9 * (u6 + 2 ^ 9 * (u5 + 2 ^ 9 * (u4 + 2 ^ 9 * (u3 + 2 ^ 9 * (u2 + 2 ^ 9 * u1)))))) by (rewrite E6; unfold l6; ring).
    repeat split; try (clear - B6; lia); try (clear - B5; lia); try (clear - B4; lia); try (clear - B3; lia); try (clear - B2; lia); try (unfold l7; clear - H7; lia);
    (eapply lo_mod; [discriminate| |eassumption]); auto. }
  destruct (K a1 a2 a3 a4 a5 a6 a7 a H1 H2 H3 H4 H5 H6 H7 Ea) as ((-> & A7) & (-> & A6) & (-> & A5) & (-> & A4) & (-> & A3) & (-> & A2) & ->).
  assert (Ex' : x = fields [v; v; v; v; v; v; v]) by (rewrite Ex; unfold fields; cbn [fold_left]; ring).
  destruct (K v v v v v v v x Hv Hv Hv Hv Hv Hv Hv Ex') as ((-> & X7) & (-> & X6) & (-> & X5) & (-> & X4) & (-> & X3) & (-> & X2) & ->). clear K.
  intros. cbv zeta in *. repeat (rewrite lex; [|assumption|assumption]). reflexivity.
Qed.

Ltac bo := repeat match goal with
  | H : ?p < ?q |- context [?p <? ?q] => rewrite (proj2 (Z.ltb_lt p q) H)
  | H : ?q <= ?p |- context [?p <? ?q] => rewrite (proj2 (Z.ltb_ge p q) H)
  | H : ?q < ?p |- context [?p <? ?q] => rewrite (proj2 (Z.ltb_ge p q) (Z.lt_le_incl _ _ H))
  | |- context [?p =? ?q] => destruct (Z.eqb_spec p q); try (exfalso; lia)
  | |- context [?p <? ?q] => destruct (Z.ltb_spec p q); try (exfalso; lia)
  end; cbn [andb orb fold_left]; try reflexivity.
Ltac pw := repeat match goal with |- context [2 ^ ?k] => let r := eval vm_compute in (2 ^ k) in change (2 ^ k) with r end.
Ltac go m a v e j s D hi Ha Hy Ea Ev :=
  exists s; split; [clear; lia|split; [change (Z.of_nat s) with (e + j); apply (@find_core m a e j D hi); [exact Ha|lia|clear; lia|clear; lia|
    cbv zeta; rewrite <- Ev, Hy; clear Hy Ea Ha; bo
    |rewrite <- Ev; clear Hy Ha; pw; rewrite Ea; ring|clear Hy Ha Ea Ev; pw; lia]|clear Hy Ha Ea; cbn [nth]; split; [lia|intros; lia]]].
Lemma find_s_ok m a1 a2 a3 a4 a5 a6 a7 : 1 <= m <= 512 ->
  0 <= a1 <= 64 -> 0 <= a2 - a1 <= 64 -> 0 <= a3 - a2 <= 64 -> 0 <= a4 - a3 <= 64 -> 0 <= a5 - a4 <= 64 -> 0 <= a6 - a5 <= 64 -> 0 <= a7 - a6 <= 64 ->
  exists s, (s <= 7)%nat /\ find_s m (fields [a1; a2; a3; a4; a5; a6; a7]) = Some (Z.of_nat s) /\
  nth s [0; a1; a2; a3; a4; a5; a6; a7] 0 < m /\ ((s < 7)%nat -> m <= nth (S s) [0; a1; a2; a3; a4; a5; a6; a7] 0).
Proof.
  intros Hm H1 H2 H3 H4 H5 H6 H7. remember (fields [a1; a2; a3; a4; a5; a6; a7]) as a eqn:Ef. remember (m - 1) as v eqn:Ev.
  assert (Ea : a = a7 + 512 * (a6 + 512 * (a5 + 512 * (a4 + 512 * (a3 + 512 * (a2 + 512 * a1)))))) by (rewrite Ef; unfold fields; cbn [fold_left]; change (2 ^ 9) with 512; ring).
  assert (Ha : word64 a) by (unfold word64; rewrite Ea; lia).
  pose proof (@cmp_fields v a1 a2 a3 a4 a5 a6 a7 (v * 0x0040201008040201) a ltac:(lia) ltac:(lia) ltac:(lia) ltac:(lia) ltac:(lia) ltac:(lia) ltac:(lia) ltac:(lia) eq_refl Ef) as Hy. cbv zeta in Hy. clear Ef.
  assert (Hv : 0 <= v <= 511) by (clear - Ev Hm; lia).
  destruct (Z.lt_ge_cases v a7) as [V7|V7].
  2:{ exists 7%nat. split; [lia|]. split; [|cbn [nth]; split; [lia|lia]]. apply find_full; [exact Ha|lia|]. cbv zeta. rewrite <- Ev, Hy. clear Hy Ea Ha. bo. }
  destruct (Z.lt_ge_cases a1 v); [destruct (Z.lt_ge_cases a2 v); [destruct (Z.lt_ge_cases a3 v); [destruct (Z.lt_ge_cases a4 v); [destruct (Z.lt_ge_cases a5 v); [destruct (Z.lt_ge_cases a6 v); [go m a v 6 0 6%nat (a7 - v * 1) (a6 + 512 * (a5 + 512 * (a4 + 512 * (a3 + 512 * (a2 + 512 * (a1))))) - v * 35253226045953) Ha Hy Ea Ev|destruct (Z.lt_ge_cases v a6); [go m a v 5 0 5%nat (a7 + 512 * (a6) - v * 513) (a5 + 512 * (a4 + 512 * (a3 + 512 * (a2 + 512 * (a1)))) - v * 68853957121) Ha Hy Ea Ev|go m a v 5 1 6%nat (a7 + 512 * (a6) - v * 513) (a5 + 512 * (a4 + 512 * (a3 + 512 * (a2 + 512 * (a1)))) - v * 68853957121) Ha Hy Ea Ev]]|destruct (Z.lt_ge_cases v a5); [go m a v 4 0 4%nat (a7 + 512 * (a6 + 512 * (a5)) - v * 262657) (a4 + 512 * (a3 + 512 * (a2 + 512 * (a1))) - v * 134480385) Ha Hy Ea Ev|destruct (Z.lt_ge_cases v a6); [go m a v 4 1 5%nat (a7 + 512 * (a6 + 512 * (a5)) - v * 262657) (a4 + 512 * (a3 + 512 * (a2 + 512 * (a1))) - v * 134480385) Ha Hy Ea Ev|go m a v 4 2 6%nat (a7 + 512 * (a6 + 512 * (a5)) - v * 262657) (a4 + 512 * (a3 + 512 * (a2 + 512 * (a1))) - v * 134480385) Ha Hy Ea Ev]]]|destruct (Z.lt_ge_cases v a4); [go m a v 3 0 3%nat (a7 + 512 * (a6 + 512 * (a5 + 512 * (a4))) - v * 134480385) (a3 + 512 * (a2 + 512 * (a1)) - v * 262657) Ha Hy Ea Ev|destruct (Z.lt_ge_cases v a5); [go m a v 3 1 4%nat (a7 + 512 * (a6 + 512 * (a5 + 512 * (a4))) - v * 134480385) (a3 + 512 * (a2 + 512 * (a1)) - v * 262657) Ha Hy Ea Ev|destruct (Z.lt_ge_cases v a6); [go m a v 3 2 5%nat (a7 + 512 * (a6 + 512 * (a5 + 512 * (a4))) - v * 134480385) (a3 + 512 * (a2 + 512 * (a1)) - v * 262657) Ha Hy Ea Ev|go m a v 3 3 6%nat (a7 + 512 * (a6 + 512 * (a5 + 512 * (a4))) - v * 134480385) (a3 + 512 * (a2 + 512 * (a1)) - v * 262657) Ha Hy Ea Ev]]]]|destruct (Z.lt_ge_cases v a3); [go m a v 2 0 2%nat (a7 + 512 * (a6 + 512 * (a5 + 512 * (a4 + 512 * (a3)))) - v * 68853957121) (a2 + 512 * (a1) - v * 513) Ha Hy Ea Ev|destruct (Z.lt_ge_cases v a4); [go m a v 2 1 3%nat (a7 + 512 * (a6 + 512 * (a5 + 512 * (a4 + 512 * (a3)))) - v * 68853957121) (a2 + 512 * (a1) - v * 513) Ha Hy Ea Ev|destruct (Z.lt_ge_cases v a5); [go m a v 2 2 4%nat (a7 + 512 * (a6 + 512 * (a5 + 512 * (a4 + 512 * (a3)))) - v * 68853957121) (a2 + 512 * (a1) - v * 513) Ha Hy Ea Ev|destruct (Z.lt_ge_cases v a6); [go m a v 2 3 5%nat (a7 + 512 * (a6 + 512 * (a5 + 512 * (a4 + 512 * (a3)))) - v * 68853957121) (a2 + 512 * (a1) - v * 513) Ha Hy Ea Ev|go m a v 2 4 6%nat (a7 + 512 * (a6 + 512 * (a5 + 512 * (a4 + 512 * (a3)))) - v * 68853957121) (a2 + 512 * (a1) - v * 513) Ha Hy Ea Ev]]]]]|destruct (Z.lt_ge_cases v a2); [go m a v 1 0 1%nat (a7 + 512 * (a6 + 512 * (a5 + 512 * (a4 + 512 * (a3 + 512 * (a2))))) - v * 35253226045953) (a1 - v * 1) Ha Hy Ea Ev|destruct (Z.lt_ge_cases v a3); [go m a v 1 1 2%nat (a7 + 512 * (a6 + 512 * (a5 + 512 * (a4 + 512 * (a3 + 512 * (a2))))) - v * 35253226045953) (a1 - v * 1) Ha Hy Ea Ev|destruct (Z.lt_ge_cases v a4); [go m a v 1 2 3%nat (a7 + 512 * (a6 + 512 * (a5 + 512 * (a4 + 512 * (a3 + 512 * (a2))))) - v * 35253226045953) (a1 - v * 1) Ha Hy Ea Ev|destruct (Z.lt_ge_cases v a5); [go m a v 1 3 4%nat (a7 + 512 * (a6 + 512 * (a5 + 512 * (a4 + 512 * (a3 + 512 * (a2))))) - v * 35253226045953) (a1 - v * 1) Ha Hy Ea Ev|destruct (Z.lt_ge_cases v a6); [go m a v 1 4 5%nat (a7 + 512 * (a6 + 512 * (a5 + 512 * (a4 + 512 * (a3 + 512 * (a2))))) - v * 35253226045953) (a1 - v * 1) Ha Hy Ea Ev|go m a v 1 5 6%nat (a7 + 512 * (a6 + 512 * (a5 + 512 * (a4 + 512 * (a3 + 512 * (a2))))) - v * 35253226045953) (a1 - v * 1) Ha Hy Ea Ev]]]]]]|destruct (Z.lt_ge_cases v a1); [go m a v 0 0 0%nat (a7 + 512 * (a6 + 512 * (a5 + 512 * (a4 + 512 * (a3 + 512 * (a2 + 512 * (a1)))))) - v * 18049651735527937) 0 Ha Hy Ea Ev|destruct (Z.lt_ge_cases v a2); [go m a v 0 1 1%nat (a7 + 512 * (a6 + 512 * (a5 + 512 * (a4 + 512 * (a3 + 512 * (a2 + 512 * (a1)))))) - v * 18049651735527937) 0 Ha Hy Ea Ev|destruct (Z.lt_ge_cases v a3); [go m a v 0 2 2%nat (a7 + 512 * (a6 + 512 * (a5 + 512 * (a4 + 512 * (a3 + 512 * (a2 + 512 * (a1)))))) - v * 18049651735527937) 0 Ha Hy Ea Ev|destruct (Z.lt_ge_cases v a4); [go m a v 0 3 3%nat (a7 + 512 * (a6 + 512 * (a5 + 512 * (a4 + 512 * (a3 + 512 * (a2 + 512 * (a1)))))) - v * 18049651735527937) 0 Ha Hy Ea Ev|destruct (Z.lt_ge_cases v a5); [go m a v 0 4 4%nat (a7 + 512 * (a6 + 512 * (a5 + 512 * (a4 + 512 * (a3 + 512 * (a2 + 512 * (a1)))))) - v * 18049651735527937) 0 Ha Hy Ea Ev|destruct (Z.lt_ge_cases v a6); [go m a v 0 5 5%nat (a7 + 512 * (a6 + 512 * (a5 + 512 * (a4 + 512 * (a3 + 512 * (a2 + 512 * (a1)))))) - v * 18049651735527937) 0 Ha Hy Ea Ev|go m a v 0 6 6%nat (a7 + 512 * (a6 + 512 * (a5 + 512 * (a4 + 512 * (a3 + 512 * (a2 + 512 * (a1)))))) - v * 18049651735527937) 0 Ha Hy Ea Ev]]]]]]].
Qed.
