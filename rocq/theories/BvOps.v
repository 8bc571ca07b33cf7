(** Proofs for [rank] and [select] of BvModel.v *)
From Verif Require Import Base BaseLemmas ListExtra NthExtra BitModel BitProof BmapModel BmapProof BvModel BvSel BvBlock BvProof.
Set Implicit Arguments.

(** the specification, characterised *)
Lemma kth_char B : forall l k p, p < length l -> nth p l false = B -> cnt B (firstn p l) = k -> kth B k l = p.
Proof.
  induction l as [|b l IH]; intros k p Hp Hn Hc; [cbn in Hp; lia|]. destruct p as [|p].
  - cbn [nth] in Hn. cbn [firstn cnt] in Hc. subst. cbn [kth]. now rewrite Bool.eqb_reflx.
  - cbn [length nth firstn cnt] in *. cbn [kth]. destruct (Bool.eqb b B).
    + subst k. f_equal. apply IH; auto. lia.
    + f_equal. apply IH; auto. lia.
Qed.
Lemma kth_none B : forall l k, cnt B l <= k -> kth B k l = length l.
Proof.
  induction l as [|b l IH]; intros k Hk; auto. cbn [cnt kth length] in *. destruct (Bool.eqb b B); [destruct k; [lia|]|]; f_equal; apply IH; lia.
Qed.
Lemma cnt_two l : cnt true l + cnt false l = length l.
Proof. induction l as [|[] l IH]; cbn [cnt Bool.eqb length]; lia. Qed.

Lemma fields_app xs ys : fields (xs ++ ys) = (fields ys + 2 ^ (9 * Z.of_nat (length ys)) * fields xs)%Z.
Proof.
  induction ys as [|y ys IH] using rev_ind; [rewrite app_nil_r; change (fields []) with 0%Z; change (2 ^ (9 * Z.of_nat (length (@nil Z))))%Z with 1%Z; lia|].
  rewrite app_assoc, !fields_snoc, IH, app_length. cbn [length]. replace (9 * Z.of_nat (length ys + 1))%Z with (9 * Z.of_nat (length ys) + 9)%Z by lia. rewrite Z.pow_add_r by lia. ring.
Qed.
Lemma cap_eq W : 1 <= W <= 64 -> l_block_cap W = fields (map (fun d => Z.of_nat (W * d)) (seq 1 7)).
Proof.
  intros HW. assert (K : forallb (fun W => (l_block_cap W =? fields (map (fun d => Z.of_nat (W * d)) (seq 1 7)))%Z) (seq 1 64) = true) by (vm_compute; reflexivity).
  rewrite forallb_forall in K. apply Z.eqb_eq, K, in_seq. lia.
Qed.

Section Ops.
Variable W : nat.
Hypothesis HW : 1 <= W <= 64.
Variable v : bvec.
Variable l : list bool.
Hypothesis R : vrep W v l.
Variable d : bv.
Hypothesis D : dir W l d.
Notation NN := (N l).
Notation GG := (G W l).
Notation nlb := (nl W l).

Lemma nl_ge : length l <= nlb * LB W.
Proof.
  unfold nl. pose proof (LBp HW). pose proof (Nat.div_mod (length l + LB W - 1) (LB W) ltac:(lia)). pose proof (Nat.mod_upper_bound (length l + LB W - 1) (LB W) ltac:(lia)). lia.
Qed.
Lemma nl_lt b : b * LB W < length l -> b < nlb.
Proof. intros Hb. unfold nl. pose proof (LBp HW). apply Nat.div_le_lower_bound; [lia|]. lia. Qed.
Lemma N_all i : length l <= i -> NN true i = cnt true l.
Proof.
  intros Hi. unfold N. rewrite (@num_false_tail _ (length l) i Hi); [|intros k Hk; unfold fb; now apply nth_overflow].
  unfold fb. rewrite num_firstn by lia. now rewrite firstn_all.
Qed.
Lemma N_firstn B i : i <= length l -> NN B i = cnt B (firstn i l).
Proof. intros. unfold N, fb. now apply num_firstn. Qed.
Lemma N_mono B i j : i <= j -> NN B i <= NN B j <= NN B i + (j - i).
Proof. intros. now apply num_le. Qed.
Lemma N_sum i : NN true i + NN false i = i. Proof. apply num_sum. Qed.

Lemma get_l_ok B b : b <= nlb -> get_l W d B b = Some (GG B b).
Proof.
  intros Hb. unfold get_l. rewrite (d_r D) by auto. cbn [obind]. destruct B; auto. f_equal. rewrite <- (G_false HW l b). lia.
Qed.
Lemma pref_split q s : s <= 7 -> pref W l q 7 = pref W l q s ++ map (fun e => Z.of_nat (dn W l q e)) (seq (1 + s) (7 - s)).
Proof. intros Hs. unfold pref. rewrite <- map_app, <- seq_app. do 2 f_equal. lia. Qed.
(** the counts inside a block *)
Definition inb (B : bool) (b s : nat) : nat := NN B (W * (b * 8 + s)) - NN B (W * (b * 8)).
Lemma inb_sum b s : inb true b s + inb false b s = W * s.
Proof.
  unfold inb. pose proof (N_sum (W * (b * 8 + s))). pose proof (N_sum (W * (b * 8))). pose proof (@N_mono true (W * (b * 8)) (W * (b * 8 + s)) ltac:(nia)). pose proof (@N_mono false (W * (b * 8)) (W * (b * 8 + s)) ltac:(nia)). nia.
Qed.
Lemma inb_dn b s : dn W l (b * 8) s = inb true b s. Proof. reflexivity. Qed.
Lemma get_s_ok B b s : b < nlb -> s <= 7 -> get_s W d B b s = Some (Z.of_nat (inb B b s)).
Proof.
  intros Hb Hs. unfold get_s. rewrite (d_f D) by auto. cbn [obind].
  assert (E : (Z.shiftr (fields (pref W l (b * 8) 7)) (s_off s) mod 2 ^ 9)%Z = Z.of_nat (inb true b s)).
  { rewrite (@pref_split _ s Hs), fields_app. unfold s_off. rewrite map_length, seq_length.
    replace (Z.of_nat ((7 - s) * 9)) with (9 * Z.of_nat (7 - s))%Z by lia. rewrite cat_shiftr; [|lia|].
    - destruct s as [|s].
      + unfold inb. rewrite Nat.add_0_r, Nat.sub_diag. reflexivity.
      + rewrite (pref_S HW), fields_snoc, cat_mod; [reflexivity|lia|]. pose proof (@dn_le W HW l (b * 8) (S s)). nia.
    - pose proof (@fields_bound W HW (map (fun e => Z.of_nat (dn W l (b * 8) e)) (seq (1 + s) (7 - s)))) as K. rewrite map_length, seq_length in K. apply K.
      apply Forall_forall. intros x Hx. apply in_map_iff in Hx. destruct Hx as (e & <- & He). apply in_seq in He. pose proof (@dn_le W HW l (b * 8) e). nia. }
  rewrite E. destruct B; auto. f_equal. pose proof (inb_sum b s). lia.
Qed.
Lemma mask_cnt w r : word64 w -> r < 64 -> popcnt (Z.land w (bv_mask r)) = Z.of_nat (cnt true (bits r w)).
Proof.
  intros Hw Hr. assert (M : bv_mask r = Z.ones (Z.of_nat r)).
  { unfold bv_mask. destruct (Nat.eqb_spec r 64); [lia|]. change (u64 (Z.shiftl 1 (Z.of_nat r))) with (one_at r). rewrite one_at_eq by auto. rewrite Z.ones_equiv. lia. }
  rewrite M, Z.land_ones by lia. assert (P : (0 < 2 ^ Z.of_nat r <= 2 ^ 64)%Z) by (split; [apply Z.pow_pos_nonneg; lia|apply Z.pow_le_mono_r; lia]).
  pose proof (Z.mod_pos_bound w (2 ^ Z.of_nat r) ltac:(lia)). rewrite popcnt_ok by (unfold word64; lia).
  replace 64 with (r + (64 - r)) by lia. rewrite bits_app, Z.shiftr_div_pow2 by lia. rewrite (Z.div_small (w mod _)) by lia. rewrite ones_count_app.
  replace (bits r (w mod 2 ^ Z.of_nat r)) with (bits r w).
  - rewrite cnt_ones. replace (ones_count (bits (64 - r) 0)) with 0%Z; [lia|]. unfold bits. generalize (seq 0 (64 - r)). intros xs. induction xs as [|x xs IH]; auto. cbn [map ones_count]. rewrite Z.bits_0. lia.
  - unfold bits. apply map_ext_in. intros k Hk. apply in_seq in Hk. now rewrite Z.mod_pow2_bits_low by lia.
Qed.
Theorem rank1_ok i : rank1 W v d i = Some (cnt true (firstn i l)).
Proof.
  unfold rank1. destruct R as (Sz & _). rewrite Sz. destruct (Nat.leb_spec (length l) i) as [Hi|Hi].
  - rewrite (d_len D). replace ((nlb + 1) * 2 - 2) with (nlb * 2) by lia. rewrite (d_r D) by lia. cbn [obind]. unfold G. rewrite Nat2Z.id. rewrite N_all by apply nl_ge. now rewrite firstn_all2.
  - pose proof (Nat.div_mod i W ltac:(lia)) as E. pose proof (Nat.mod_upper_bound i W ltac:(lia)) as Hr. set (q := i / W) in *. set (r := i mod W) in *.
    assert (Hq : q < length (vwords v)) by (rewrite <- (words_lt HW R); lia). destruct (@get_lt _ (vwords v) q Hq) as (w & Gw). rewrite Gw. cbn [obind].
    assert (Q8 : i / LB W = q / 8 /\ i mod LB W / W = q mod 8).
    { unfold LB. pose proof (Nat.div_mod q 8 ltac:(lia)). pose proof (Nat.mod_upper_bound q 8 ltac:(lia)). split; [symmetry; unfold q; apply Nat.div_div; lia|].
      rewrite Nat.mod_mul_r by lia. fold q r. rewrite Nat.add_comm, Nat.mul_comm, Nat.div_add_l by lia. rewrite (Nat.div_small r W) by lia. lia. }
    destruct Q8 as (-> & ->). pose proof (Nat.div_mod q 8 ltac:(lia)) as E8. pose proof (Nat.mod_upper_bound q 8 ltac:(lia)) as H8. set (b := q / 8) in *. set (s := q mod 8) in *.
    assert (Hb : b < nlb). { apply nl_lt. unfold LB. nia. }
    rewrite get_l_ok by lia. cbn [obind]. rewrite get_s_ok by lia. cbn [obind]. rewrite mask_cnt by (try lia; eapply word_of; eauto). f_equal.
    rewrite <- N_firstn by lia. replace (NN true i) with (NN true (W * q + r)) by (f_equal; lia). rewrite (bits_num HW R true _ Gw) by lia. unfold G, inb. unfold LB.
    replace (b * (W * 8)) with (W * (b * 8)) by lia. replace (W * (b * 8 + s)) with (W * q) by lia. pose proof (@N_mono true (W * (b * 8)) (W * q) ltac:(nia)). lia.
Qed.
Theorem rank_ok B i : i <= length l -> rank W v d B i = Some (cnt B (firstn i l)).
Proof.
  intros Hi. unfold rank, rank0. rewrite rank1_ok. destruct B; auto. cbn [obind]. pose proof (cnt_two (firstn i l)) as K. rewrite firstn_length in K. destruct (Nat.leb_spec (cnt true (firstn i l)) i); [|lia]. cbn [guard obind]. f_equal. lia.
Qed.

(** the block search *)
Lemma samples (B : bool) : exists s, (if B then v_s d else v_zs d) = s ++ [nlb] /\ samp (GG B) (Z.of_nat (LB W)) s nlb.
Proof. destruct B; [apply (d_s D)|apply (d_zs D)]. Qed.
Lemma block_find (B : bool) (n lo hi : nat) : (GG B lo < Z.of_nat n)%Z -> lo < hi <= nlb + 1 -> (hi <= nlb -> (Z.of_nat n <= GG B hi)%Z) -> (Z.of_nat n <= GG B nlb)%Z ->
  exists b, loop (length (v_r d) + 2) (fun '((l, r) : nat * nat) => if (l + 1 <? r) then let c := (l + (r - l) / 2) in let* x := get_l W d B c in Some (inl (if (x <? Z.of_nat n)%Z then (c, r) else (l, c))) else Some (inr l)) (lo, hi) = Some b /\
  b < nlb /\ (GG B b < Z.of_nat n <= GG B (S b))%Z.
Proof.
  intros H0 Hh H1 Ht. match goal with |- exists b, loop ?f ?bd ?st = _ /\ _ =>
    destruct (@loop_rule _ _ (fun '(l, r) => (GG B l < Z.of_nat n)%Z /\ l < r <= nlb + 1 /\ (r <= nlb -> (Z.of_nat n <= GG B r)%Z)) (fun '(l, r) => r - l) (fun b => b < nlb /\ (GG B b < Z.of_nat n <= GG B (S b))%Z) bd) with (fuel := f) (s := st) as (b & E & K) end.
  - intros (x, y) (I0 & I1 & I2). destruct (Nat.ltb_spec (x + 1) y) as [C|C].
    + assert (Hd : 1 <= (y - x) / 2 < y - x) by (split; [apply Nat.div_le_lower_bound; lia|apply Nat.div_lt; lia]). cbv zeta. set (e := (y - x) / 2) in *. rewrite get_l_ok by lia. cbn [obind]. eexists; split; [reflexivity|]. cbv beta iota. destruct (Z.ltb_spec (GG B (x + e)) (Z.of_nat n)); (split; [|lia]); repeat split; auto; try lia.
    + eexists; split; [reflexivity|]. cbv beta iota. assert (y = S x) by lia. subst y. destruct (Nat.eq_dec x nlb) as [->|]; [lia|]. split; [lia|]. split; auto. apply I2. lia.
  - auto.
  - rewrite (d_len D). lia.
  - eauto.
Qed.
Lemma start_find (B : bool) n : 1 <= n <= NN B (length l) -> exists lo hi, get (if B then v_s d else v_zs d) (n / LB W) = Some lo /\ get (if B then v_s d else v_zs d) (n / LB W + 1) = Some hi /\
  (GG B lo < Z.of_nat n)%Z /\ lo < hi + 1 <= nlb + 1 /\ (hi + 1 <= nlb -> (Z.of_nat n <= GG B (hi + 1))%Z).
Proof.
  intros Hn. destruct (samples B) as (s & -> & (Ls & S0 & Sk)). pose proof (LBp HW) as LB0. pose proof (Nat.div_mod n (LB W) ltac:(lia)) as E. pose proof (Nat.mod_upper_bound n (LB W) ltac:(lia)) as Hm. set (k := n / LB W) in *. set (r := n mod LB W) in *.
  assert (Ht : (Z.of_nat n <= GG B nlb)%Z) by (unfold G; pose proof (@N_mono B (length l) (nlb * LB W) nl_ge); lia).
  assert (Hk : (Z.of_nat k <= GG B nlb / Z.of_nat (LB W))%Z) by (apply Z.div_le_lower_bound; nia).
  assert (Lk : k < length s) by lia. destruct (@get_lt _ s k Lk) as (lo & Glo). exists lo.
  assert (Klo : (GG B lo < Z.of_nat n)%Z /\ (lo < nlb \/ k = 0 /\ lo = 0)).
  { destruct (Nat.eq_dec k 0) as [K0|K0]. - rewrite K0 in *. rewrite S0 in Glo. injection Glo as <-. split; auto. unfold G. cbn. lia.
    - destruct (Sk k lo ltac:(lia) Glo). split; [nia|auto]. }
  destruct (Nat.lt_ge_cases (k + 1) (length s)) as [K1|K1].
  - destruct (@get_lt _ s (k + 1) K1) as (hi & Ghi). exists hi. rewrite !get_app_l by lia. repeat split; auto; try apply Klo.
    + destruct (Sk (k + 1) hi ltac:(lia) Ghi) as (Hh & Kh). destruct (Nat.lt_ge_cases hi lo) as [Q|Q]; [|lia]. exfalso.
      assert (GG B (S hi) <= GG B lo)%Z by (unfold G; pose proof (@N_mono B (S hi * LB W) (lo * LB W) ltac:(nia)); lia). nia.
    + destruct (Sk (k + 1) hi ltac:(lia) Ghi); lia.
    + destruct (Sk (k + 1) hi ltac:(lia) Ghi) as (Hh & Kh). intros _. replace (hi + 1) with (S hi) by lia. nia.
  - exists nlb. rewrite get_app_l by lia. rewrite get_app_r by lia. replace (k + 1 - length s) with 0 by lia. repeat split; auto; try apply Klo; try lia.
Qed.
Lemma false_a b : b < nlb -> u64 (l_block_cap W - fields (pref W l (b * 8) 7)) = fields (map (fun s => Z.of_nat (inb false b s)) (seq 1 7)).
Proof.
  intros Hb. rewrite cap_eq by auto. unfold pref. cbn [map seq]. rewrite !inb_dn. pose proof (inb_sum b 1). pose proof (inb_sum b 2). pose proof (inb_sum b 3). pose proof (inb_sum b 4). pose proof (inb_sum b 5). pose proof (inb_sum b 6). pose proof (inb_sum b 7).
  set (t1 := inb true b 1) in *. set (t2 := inb true b 2) in *. set (t3 := inb true b 3) in *. set (t4 := inb true b 4) in *. set (t5 := inb true b 5) in *. set (t6 := inb true b 6) in *. set (t7 := inb true b 7) in *.
  pose proof (@fields_bound W HW (map (fun s => Z.of_nat (inb false b s)) (seq 1 7))) as K. cbn [map seq length] in K.
  set (f1 := inb false b 1) in *. set (f2 := inb false b 2) in *. set (f3 := inb false b 3) in *. set (f4 := inb false b 4) in *. set (f5 := inb false b 5) in *. set (f6 := inb false b 6) in *. set (f7 := inb false b 7) in *.
  rewrite <- H, <- H0, <- H1, <- H2, <- H3, <- H4, <- H5.
  match goal with |- u64 ?x = ?y => assert (E : x = y) end.
  { unfold fields. cbn [fold_left]. rewrite !Nat2Z.inj_add. ring. }
  rewrite E. unfold u64. apply Z.mod_small. change (2 ^ (9 * Z.of_nat 7))%Z with (2 ^ 63)%Z in K. assert (Q : Forall (fun x => 0 <= x < 512)%Z [Z.of_nat f1; Z.of_nat f2; Z.of_nat f3; Z.of_nat f4; Z.of_nat f5; Z.of_nat f6; Z.of_nat f7]) by (repeat constructor; nia).
  specialize (K Q). lia.
Qed.
Lemma packed (B : bool) b : b < nlb -> exists a, get (v_r d) (b * 2 + 1) = Some a /\ (if B then a else u64 (l_block_cap W - a)) = fields (map (fun s => Z.of_nat (inb B b s)) (seq 1 7)).
Proof. intros Hb. exists (fields (pref W l (b * 8) 7)). split; [now apply (d_f D)|]. destruct B; [reflexivity|now apply false_a]. Qed.
Lemma inb_step B b s : inb B b s <= inb B b (S s) <= inb B b s + W.
Proof.
  unfold inb. pose proof (@N_mono B (W * (b * 8)) (W * (b * 8 + s)) ltac:(nia)). pose proof (@N_mono B (W * (b * 8 + s)) (W * (b * 8 + S s)) ltac:(nia)).
  replace (W * (b * 8 + S s) - W * (b * 8 + s)) with W in * by nia. lia.
Qed.
Lemma inb_0 B b : inb B b 0 = 0. Proof. unfold inb. now rewrite Nat.add_0_r, Nat.sub_diag. Qed.
Lemma inb_8 B b : (GG B b + Z.of_nat (inb B b 8) = GG B (S b))%Z.
Proof. unfold inb, G, LB. replace (W * (b * 8 + 8)) with (S b * (W * 8)) by lia. replace (W * (b * 8)) with (b * (W * 8)) by lia. pose proof (@N_mono B (b * (W * 8)) (S b * (W * 8)) ltac:(nia)). lia. Qed.
Lemma small_find B b m : 1 <= m <= inb B b 8 -> exists s, s <= 7 /\ find_s (Z.of_nat m) (fields (map (fun s => Z.of_nat (inb B b s)) (seq 1 7))) = Some (Z.of_nat s) /\ inb B b s < m <= inb B b (S s).
Proof.
  intros Hm. pose proof (inb_0 B b) as I0. pose proof (inb_step B b 0). pose proof (inb_step B b 1). pose proof (inb_step B b 2). pose proof (inb_step B b 3). pose proof (inb_step B b 4). pose proof (inb_step B b 5). pose proof (inb_step B b 6). pose proof (inb_step B b 7).
  destruct (@find_s_ok (Z.of_nat m) (Z.of_nat (inb B b 1)) (Z.of_nat (inb B b 2)) (Z.of_nat (inb B b 3)) (Z.of_nat (inb B b 4)) (Z.of_nat (inb B b 5)) (Z.of_nat (inb B b 6)) (Z.of_nat (inb B b 7))) as (s & Hs & E & K1 & K2); try lia.
  exists s. split; auto. split; [exact E|]. assert (Q : forall t, t <= 7 -> nth t [0%Z; Z.of_nat (inb B b 1); Z.of_nat (inb B b 2); Z.of_nat (inb B b 3); Z.of_nat (inb B b 4); Z.of_nat (inb B b 5); Z.of_nat (inb B b 6); Z.of_nat (inb B b 7)] 0%Z = Z.of_nat (inb B b t)).
  { intros t Ht. do 8 (destruct t as [|t]; [cbn [nth]; rewrite ?I0; reflexivity|]). lia. }
  rewrite Q in K1 by auto. split; [lia|]. destruct (Nat.eq_dec s 7) as [->|]; [lia|]. specialize (K2 ltac:(lia)). rewrite Q in K2 by lia. lia.
Qed.
Theorem select_ok B k : select W v d B k = Some (kth B k l).
Proof.
  unfold select. destruct R as (Sz & _). rewrite Sz. rewrite rank_ok, firstn_all by lia. cbn [obind]. cbv zeta. destruct (Nat.ltb_spec (cnt B l) (k + 1)) as [C|C].
  { f_equal. symmetry. apply kth_none. lia. }
  assert (Nl : NN B (length l) = cnt B l) by (rewrite N_firstn, firstn_all by lia; auto).
  destruct (@start_find B (k + 1) ltac:(lia)) as (lo & hi & -> & E2 & K0 & K1 & K2). cbn [obind]. rewrite E2. cbn [obind].
  assert (Ht : (Z.of_nat (k + 1) <= GG B nlb)%Z) by (unfold G; pose proof (@N_mono B (length l) (nlb * LB W) nl_ge); lia).
  destruct (@block_find B (k + 1) lo (hi + 1) K0 K1 K2 Ht) as (b & El & Hb & Kb). cbv zeta in El. rewrite El. clear El. cbn [obind]. rewrite get_l_ok by lia. cbn [obind].
  destruct (packed B Hb) as (a & -> & Ea). cbn [obind]. rewrite Ea.
  pose proof (inb_8 B b) as I8. assert (Em : (Z.of_nat (k + 1) - GG B b)%Z = Z.of_nat (k + 1 - NN B (b * LB W))) by (unfold G in *; lia). rewrite Em. set (m := k + 1 - NN B (b * LB W)) in *.
  destruct (@small_find B b m ltac:(unfold G in *; lia)) as (s & Hs & -> & Ks). cbn [obind]. rewrite Nat2Z.id. rewrite get_s_ok by auto. cbn [obind].
  assert (Eb : b * LB W = W * (b * 8)) by (unfold LB; lia).
  pose proof (@N_mono B (W * (b * 8)) (W * (b * 8 + s)) ltac:(nia)) as M1. pose proof (@N_mono B (W * (b * 8 + s)) (W * (b * 8 + S s)) ltac:(nia)) as M2.
  set (q := b * 8 + s) in *. unfold inb in Ks. replace (b * 8 + S s) with (q + 1) in * by lia. fold q in Ks.
  assert (Nq : NN B (W * q) <= k < NN B (W * (q + 1))) by (unfold G in *; rewrite Eb in *; lia).
  assert (Hq : W * q < length l). { destruct (Nat.lt_ge_cases (W * q) (length l)); auto. pose proof (@N_mono B (length l) (W * q) ltac:(auto)). lia. }
  assert (Lq : q < length (vwords v)) by (now apply (words_lt HW R)). destruct (@get_lt _ (vwords v) q Lq) as (w & Gw). rewrite Gw. cbn [obind].
  replace (Z.of_nat m - Z.of_nat (inb B b s) - 1)%Z with (Z.of_nat (k - NN B (W * q))) by (unfold inb; fold q; unfold G in *; rewrite Eb in *; lia).
  assert (Hw : word64 w) by (eapply word_of; eauto).
  assert (BW : NN B (W * (q + 1)) = NN B (W * q) + cnt B (bits W w)) by (replace (W * (q + 1)) with (W * q + W) by lia; now apply (bits_num HW R)).
  assert (B64 : cnt B (bits W w) <= cnt B (bits 64 w)). { rewrite (bits_tail HW R _ Gw), cnt_app. lia. }
  destruct (@select64_ok B w (k - NN B (W * q)) Hw ltac:(lia)) as (p & Hp & -> & Tp & Cp). cbn [obind]. f_equal. rewrite Nat2Z.id.
  assert (PW : p < W). { destruct (Nat.lt_ge_cases p W) as [|Q]; auto. exfalso. replace p with (W + (p - W)) in Cp by lia. rewrite bits_app, cnt_app in Cp. lia. }
  assert (Npos : NN B (W * q + p) = k) by (rewrite (bits_num HW R B _ Gw) by lia; lia).
  assert (Fp : fb l (W * q + p) = B). { destruct R as (_ & _ & _ & K). specialize (K q w p Gw Hp). rewrite Tp in K. destruct (Nat.ltb_spec p W); [|lia]. cbn [andb] in K. unfold fb. now symmetry. }
  assert (Lp : W * q + p < length l). { destruct (Nat.lt_ge_cases (W * q + p) (length l)) as [|Q]; auto. pose proof (@N_mono B (length l) (W * q + p) Q). lia. }
  replace (b * LB W + s * W + p) with (W * q + p) by (unfold q; lia). symmetry. apply kth_char; auto. rewrite <- N_firstn by lia. auto.
Qed.
End Ops.
