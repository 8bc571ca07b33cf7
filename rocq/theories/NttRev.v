(** The in-place bit reversal, sizes and the root tables. *)
From Coq Require Import Znumtheory.
From Verif Require Import Base BaseLemmas NthExtra SearchModel BitModel BitProof NumTheory ModularModel ModularProof PrimRootModel PrimRootProof PrimRootProp NttModel NttSum NttPass.
Local Open Scope Z_scope.
Ltac Zify.zify_post_hook ::= idtac.

Lemma lxor_pow i t : (i < 2 ^ t)%nat -> Nat.lxor i (2 ^ t) = (i + 2 ^ t)%nat.
Proof.
  intros H. symmetry. apply Nat.add_nocarry_lxor. apply Nat.bits_inj. intros k.
  rewrite Nat.land_spec, Nat.pow2_bits_eqb, Nat.bits_0. destruct (Nat.eqb_spec t k) as [->|]; [|apply andb_false_r].
  rewrite andb_true_r. rewrite <- (Nat.mod_small i (2 ^ k)) by auto. apply Nat.mod_pow2_bits_high. lia.
Qed.
Lemma lxor_pow2 i t : (i < 2 ^ t)%nat -> Nat.lxor (i + 2 ^ t) (2 ^ t) = i.
Proof. intros H. rewrite <- lxor_pow by auto. now rewrite Nat.lxor_assoc, Nat.lxor_nilpotent, Nat.lxor_0_r. Qed.

Lemma rev_next_ok t : forall j fuel, (S t < fuel)%nat -> (j + 1 < 2 ^ S t)%nat ->
  rev_next fuel (2 ^ t) (brev (S t) j) = Some (brev (S t) (j + 1)).
Proof.
  induction t as [|t IH]; intros j fuel Hf Hj; (destruct fuel as [|fuel]; [lia|]); unfold rev_next; cbn [loop].
  - assert (j = 0)%nat as -> by (cbn in Hj; lia). reflexivity.
  - pose proof (brev_lt (S t) (j / 2)) as B.
    destruct (Nat.Even_or_Odd j) as [[e Ej]|[e Ej]].
    + replace j with (2 * e + 0)%nat by lia. replace (2 * e + 0 + 1)%nat with (2 * e + 1)%nat by lia.
      rewrite !brev_low by lia. rewrite Nat.mul_0_r, Nat.add_0_r. rewrite Nat.mul_1_r.
      pose proof (brev_lt (S t) e). rewrite lxor_pow by auto.
      destruct (Nat.ltb_spec (brev (S t) e + 2 ^ S t) (2 ^ S t)); [lia|]. reflexivity.
    + rewrite Ej. replace (2 * e + 1 + 1)%nat with (2 * (e + 1) + 0)%nat by lia. rewrite !brev_low by lia.
      rewrite Nat.mul_0_r, Nat.add_0_r. rewrite Nat.mul_1_r.
      pose proof (brev_lt (S t) e). rewrite lxor_pow2 by auto.
      destruct (Nat.ltb_spec (brev (S t) e) (2 ^ S t)); [|lia]. cbn [obind].
      replace (2 ^ S t / 2)%nat with (2 ^ t)%nat by (rewrite Nat.pow_succ_r', Nat.mul_comm, Nat.div_mul; lia).
      apply IH; [lia|]. rewrite (Nat.pow_succ_r' 2 (S t)) in Hj. lia.
Qed.

Lemma brev_0 t : brev t 0 = 0%nat.
Proof. induction t; auto. change 0%nat with (2 * 0 + 0)%nat at 1. rewrite brev_low by lia. rewrite IHt. lia. Qed.
Lemma brev_last t : brev t (2 ^ t - 1) = (2 ^ t - 1)%nat.
Proof.
  induction t; auto. pose proof (Nat.pow_nonzero 2 t ltac:(lia)). rewrite Nat.pow_succ_r'.
  replace (2 * 2 ^ t - 1)%nat with (2 * (2 ^ t - 1) + 1)%nat by lia. rewrite brev_low by lia. rewrite IHt. lia.
Qed.

Lemma pow_lt_nat t s : (t < s)%nat -> (2 ^ t < 2 ^ s)%nat.
Proof. intros. apply Nat.pow_lt_mono_r; lia. Qed.

Lemma ceil_pow2_le x : (x <= 2 ^ ceil_pow2 x)%nat.
Proof.
  unfold ceil_pow2. destruct (Nat.eqb_spec x 0); [lia|]. unfold bitlen. destruct (Nat.eqb_spec (x - 1) 0).
  - cbn. lia.
  - pose proof (Nat.log2_spec (x - 1) ltac:(lia)). lia.
Qed.
Lemma ceil_pow2_min x t : (x <= 2 ^ t)%nat -> (ceil_pow2 x <= t)%nat.
Proof.
  intros H. unfold ceil_pow2. destruct (Nat.eqb_spec x 0); [lia|]. unfold bitlen. destruct (Nat.eqb_spec (x - 1) 0); [lia|].
  assert (Nat.log2 (x - 1) < t)%nat; [|lia]. apply Nat.log2_lt_pow2; lia.
Qed.
Lemma ceil_pow2_pow t : ceil_pow2 (2 ^ t) = t.
Proof.
  apply Nat.le_antisymm; [now apply ceil_pow2_min|]. destruct (Nat.le_gt_cases t (ceil_pow2 (2 ^ t))) as [|C]; auto.
  apply pow_lt_nat in C. pose proof (ceil_pow2_le (2 ^ t)). lia.
Qed.

Lemma bit_reverse_ok t f : length f = (2 ^ t)%nat ->
  exists f', bit_reverse f = Some f' /\ length f' = (2 ^ t)%nat /\
    forall j, (j < 2 ^ t)%nat -> get f' j = get f (brev t j).
Proof.
  intros Lf. unfold bit_reverse. rewrite Lf, ceil_pow2_pow.
  match goal with |- context [for_up _ _ ?bd _] => set (body := bd) end.
  pose proof (Nat.pow_nonzero 2 t ltac:(lia)) as NZ.
  destruct (@for_up_rule _ (fun j '(i, f') => i = brev t (j - 1) /\ length f' = (2 ^ t)%nat /\
    forall x, (x < 2 ^ t)%nat -> get f' x = if (Nat.max x (brev t x) <? j)%nat then get f (brev t x) else get f x)
    body (2 ^ t - 2)%nat 1%nat (0%nat, f)) as ([i f'] & E & Ei & L' & K).
  - split; [now rewrite brev_0|]. split; auto. intros x Hx. destruct (Nat.ltb_spec (Nat.max x (brev t x)) 1); auto.
    assert (x = 0)%nat as -> by lia. now rewrite brev_0.
  - intros j [i f'] Hj (-> & L' & K). unfold body. destruct t as [|t]; [cbn in Hj; lia|].
    replace (2 ^ S t / 2)%nat with (2 ^ t)%nat by (rewrite Nat.pow_succ_r', Nat.mul_comm, Nat.div_mul; lia).
    rewrite rev_next_ok by lia. cbn [obind]. replace (j - 1 + 1)%nat with j by lia.
    set (T := S t) in *. pose proof (brev_lt T j) as Bi. pose proof (brev_inv T j ltac:(lia)) as Bj.
    set (i := brev T j) in *.
    assert (Oth : forall x, (x < 2 ^ T)%nat -> x <> j -> x <> i ->
      (Nat.max x (brev T x) <? S j)%nat = (Nat.max x (brev T x) <? j)%nat).
    { intros x Hx N1 N2. assert (brev T x <> j) by (intros Eq; apply N2; unfold i; rewrite <- Eq; symmetry; now apply brev_inv).
      destruct (Nat.ltb_spec (Nat.max x (brev T x)) (S j)), (Nat.ltb_spec (Nat.max x (brev T x)) j); auto; lia. }
    destruct (Nat.ltb_spec i j) as [C|C].
    + unfold vswap.
      destruct (@get_lt _ f' i ltac:(lia)) as (a & Ga). destruct (@get_lt _ f' j ltac:(lia)) as (b & Gb).
      rewrite Ga, Gb. cbn [obind]. rewrite set_some by lia. cbn [obind]. rewrite set_some by (rewrite lset_length; lia).
      cbn [obind]. eexists; split; [reflexivity|]. cbn beta iota.
      split; [now replace (S j - 1)%nat with j by lia|]. split; [now rewrite !lset_length|].
      pose proof (K i Bi) as Ki. rewrite Bj in Ki. destruct (Nat.ltb_spec (Nat.max i j) j) in Ki; [lia|].
      pose proof (K j ltac:(lia)) as Kj. fold i in Kj. destruct (Nat.ltb_spec (Nat.max j i) j) in Kj; [lia|].
      intros x Hx. destruct (Nat.eq_dec x j) as [->|Nj].
      { rewrite get_lset_eq by (rewrite lset_length; lia). fold i.
        destruct (Nat.ltb_spec (Nat.max j i) (S j)); [congruence|lia]. }
      rewrite get_lset_neq by auto. destruct (Nat.eq_dec x i) as [->|Ni].
      { rewrite get_lset_eq by lia. rewrite Bj. destruct (Nat.ltb_spec (Nat.max i j) (S j)); [congruence|lia]. }
      rewrite get_lset_neq by auto. rewrite Oth by auto. now apply K.
    + cbn [obind]. eexists; split; [reflexivity|]. cbn beta iota.
      split; [now replace (S j - 1)%nat with j by lia|]. split; auto.
      intros x Hx. rewrite K by auto. destruct (Nat.eq_dec x j) as [->|Nj].
      { fold i. destruct (Nat.ltb_spec (Nat.max j i) (S j)), (Nat.ltb_spec (Nat.max j i) j); auto; try lia.
        replace i with j by lia. auto. }
      destruct (Nat.eq_dec x i) as [->|Ni].
      { rewrite Bj. destruct (Nat.ltb_spec (Nat.max i j) (S j)), (Nat.ltb_spec (Nat.max i j) j); auto; lia. }
      now rewrite Oth.
  - rewrite E. cbn [obind]. exists f'. split; auto. split; auto. intros j Hj. rewrite K by auto.
    destruct (Nat.ltb_spec (Nat.max j (brev t j)) (1 + (2 ^ t - 2))) as [|C]; auto.
    pose proof (brev_lt t j). assert (j = 2 ^ t - 1 \/ brev t j = 2 ^ t - 1)%nat as [->|C2] by lia.
    + now rewrite brev_last.
    + assert (j = 2 ^ t - 1)%nat as -> by (rewrite <- (brev_inv t j) by auto; rewrite C2; apply brev_last).
      now rewrite brev_last.
Qed.

(** ** The root tables *)
Section Tab.
Variable p : Z.
Hypothesis P : prime p.
Hypothesis Hp : p < 2 ^ 31.
Let P2 : 2 <= p. Proof. apply prime_ge_2. exact P. Qed.
Let M : 1 <= p < 2 ^ 31. Proof. lia. Qed.
Local Notation "a == b" := (eqm p a b) (at level 70).

Lemma log_n_split : exists q, 0 <= q /\ p - 1 = 2 ^ Z.of_nat (info_log_n p) * (2 * q + 1) /\ (info_log_n p < 31)%nat.
Proof.
  destruct (odd_split (p - 1)) as (s & q0 & Hs & Hq & ES); [lia|].
  assert (S31 : s < 31). { apply (Z.pow_lt_mono_r_iff 2); [lia|lia|]. apply Z.le_lt_trans with (p - 1); [|lia]. rewrite ES. 
    pose proof (Z.pow_pos_nonneg 2 s). nia. }
  assert (CT : ctz (u64 (p - 1)) = s).
  { unfold u64. rewrite Z.mod_small by lia. rewrite ctz_ok by (unfold word64; lia). rewrite ES.
    rewrite <- (Z2Nat.id s) by lia. apply run_split; lia. }
  exists q0. unfold info_log_n. rewrite CT. rewrite Z2Nat.id by auto. split; auto. split; auto. lia.
Qed.

(** The table of [rt] for a base [r]. *)
Definition rt (c : list Z) (t : nat) : Z := match t with O => 1 | S i => nth i c 0 end.

Lemma table_ok L r : 0 <= r < p -> exists c,
  for_down L 0 (fun i '(c, iw) =>
    let* c := set c i iw in let* iw := m_mul p iw iw in Some (c, iw)) (repeat 0 L, r) = Some c /\
  length (fst c) = L /\ residues p (fst c) /\ forall i, (i < L)%nat -> nth i (fst c) 0 == pw r (2 ^ (L - 1 - i)).
Proof.
  intros Hr. match goal with |- context [for_down _ _ ?bd _] => set (body := bd) end.
  destruct (@for_down_rule _ (fun k '(c, iw) => length c = L /\ residues p c /\ 0 <= iw < p /\ iw == pw r (2 ^ (L - k)) /\
    forall i, (k <= i < L)%nat -> nth i c 0 == pw r (2 ^ (L - 1 - i))) body 0%nat L (repeat 0 L, r)) as ([c iw] & E & Lc & Rc & Ri & Ei & K).
  - cbn beta iota. split; [apply repeat_length|]. split.
    { unfold residues. apply Forall_forall. intros x Hx. apply repeat_spec in Hx. lia. }
    split; auto. split; [rewrite Nat.sub_diag; change (2 ^ 0)%nat with 1%nat; now rewrite pw_1|]. intros; lia.
  - intros k [c iw] Hk (Lc & Rc & Ri & Ei & K). unfold body. rewrite set_some by lia. cbn [obind].
    rewrite m_mul_ok by (auto; unfold residue; auto). cbn [obind]. eexists; split; [reflexivity|]. cbn beta iota.
    split; [now rewrite lset_length|]. split.
    { unfold residues in *. rewrite Forall_forall in *. intros x Hx. apply (In_nth _ _ 0) in Hx. rewrite lset_length in Hx.
      destruct Hx as (n & Hn & <-). destruct (Nat.eq_dec n k) as [->|Ne].
      - rewrite nth_lset_eq by lia. auto.
      - rewrite nth_lset_neq by auto. apply Rc. now apply nth_In. }
    split; [apply Z.mod_pos_bound; lia|]. split.
    { transitivity (iw * iw); [apply eqm_mod|]. rewrite Ei. replace (L - k)%nat with (S (L - S k)) by lia.
      rewrite Nat.pow_succ_r'. replace (2 * 2 ^ (L - S k))%nat with (2 ^ (L - S k) + 2 ^ (L - S k))%nat by lia.
      rewrite pw_add. reflexivity. }
    intros i Hi. destruct (Nat.eq_dec i k) as [->|Ne].
    + rewrite nth_lset_eq by lia. rewrite Ei. replace (L - 1 - k)%nat with (L - S k)%nat by lia. reflexivity.
    + rewrite nth_lset_neq by auto. apply K. lia.
  - exists (c, iw). repeat split; auto. intros i Hi. apply K. lia.
Qed.

(** The root of unity the tables are built from. *)
Lemma base_root : exists g r, primitive_root p = Some g /\ 0 < g < p /\ generator p g /\ 0 < r < p /\
  m_pow p (m_signed p g) (Z.shiftr (p - 1) (Z.of_nat (info_log_n p))) = Some r /\
  (forall t, (t <= info_log_n p)%nat -> pw r (2 ^ (info_log_n p - t)) == g ^ ((p - 1) / 2 ^ Z.of_nat t)) /\
  pw r (2 ^ info_log_n p) == 1 /\
  ((1 <= info_log_n p)%nat -> pw r (2 ^ (info_log_n p - 1)) == -1).
Proof.
  destruct (C67_generator p P Hp) as (g & Eg & Hg & Gen). exists g.
  destruct log_n_split as (q & Hq & EQ & LL). set (L := info_log_n p) in *.
  rewrite m_signed_ok by auto. rewrite (Z.mod_small g) by lia.
  assert (PL : 0 < 2 ^ Z.of_nat L) by (apply Z.pow_pos_nonneg; lia).
  assert (ESh : Z.shiftr (p - 1) (Z.of_nat L) = 2 * q + 1).
  { rewrite Z.shiftr_div_pow2 by lia. rewrite EQ. rewrite Z.mul_comm. now apply Z.div_mul; lia. }
  rewrite ESh.
  assert (B63 : 0 <= 2 * q + 1 < 2 ^ 63).
  { split; [lia|]. apply Z.le_lt_trans with (p - 1); [rewrite EQ; nia|]. apply Z.lt_trans with (2 ^ 31); [lia|reflexivity]. }
  rewrite m_pow_ok by (auto; unfold residue; lia). exists (g ^ (2 * q + 1) mod p). split; [exact Eg|]. split; auto. split; auto.
  set (r := g ^ (2 * q + 1) mod p).
  assert (Er : r == g ^ (2 * q + 1)) by apply eqm_mod.
  assert (Ng : ~ (p | g)) by (apply not_div_small; lia).
  assert (Hr : 0 < r < p).
  { assert (0 <= r < p) by (apply Z.mod_pos_bound; lia). destruct (Z.eq_dec r 0) as [R0|]; [|lia]. exfalso.
    apply (not_div_pow p P g (2 * q + 1)); auto; [lia|]. apply Z.mod_divide; [lia|exact R0]. }
  assert (EP : forall t, (t <= L)%nat -> pw r (2 ^ (L - t)) == g ^ ((p - 1) / 2 ^ Z.of_nat t)).
  { intros t Ht. rewrite Er. unfold pw. rewrite <- Z.pow_mul_r by lia. apply eq_eqm. f_equal.
    rewrite EQ. replace (Z.of_nat L) with (Z.of_nat (L - t) + Z.of_nat t) by lia. rewrite Z.pow_add_r by lia.
    rewrite Nat2Z.inj_pow. change (Z.of_nat 2) with 2.
    rewrite Z.mul_shuffle0.
    rewrite Z.div_mul by (apply Z.pow_nonzero; lia). apply Z.mul_comm. }
  split; auto. split; [reflexivity|]. split; [exact EP|].
  assert (F1 : g ^ (p - 1) == 1) by (apply fermat; auto).
  split.
  - rewrite <- (Nat.sub_0_r L) at 1. rewrite EP by lia. change (2 ^ Z.of_nat 0) with 1. rewrite Z.div_1_r. exact F1.
  - intros HL. rewrite EP by auto. change (2 ^ Z.of_nat 1) with 2.
    assert (Ev : p - 1 = 2 * ((p - 1) / 2)).
    { assert (E2 : p - 1 = 2 * (2 ^ Z.of_nat (L - 1) * (2 * q + 1))).
      { rewrite EQ at 1. replace (Z.of_nat L) with (1 + Z.of_nat (L - 1)) by lia. rewrite Z.pow_add_r by lia. rewrite Z.pow_1_r. symmetry. apply Z.mul_assoc. }
      rewrite E2 at 2. rewrite (Z.mul_comm 2 (_ * _)), Z.div_mul by lia. lia. }
    set (e := (p - 1) / 2) in *.
    destruct (sq_one p P (g ^ e)) as [O1|O1]; auto.
    + rewrite <- Z.pow_add_r by lia. replace (e + e) with (p - 1) by lia. exact F1.
    + exfalso. destruct Gen as [Inj _].
      assert (e = 0); [|lia]. apply Inj; [lia|lia|]. rewrite Z.pow_0_r. apply eqm_mod_eq; [lia|exact O1].
Qed.

(** Both tables: [rt cf] and [rt cb] are inverse roots of unity. *)
Lemma coeff_ok : exists g cf cb, primitive_root p = Some g /\ 0 < g < p /\ generator p g /\
  coeff p true = Some cf /\ coeff p false = Some cb /\
  length cf = info_log_n p /\ length cb = info_log_n p /\ residues p cf /\ residues p cb /\
  (forall t, (t <= info_log_n p)%nat -> rt cb t == g ^ ((p - 1) / 2 ^ Z.of_nat t)) /\
  (forall t, (t <= info_log_n p)%nat -> rt cf t * rt cb t == 1) /\
  ((1 <= info_log_n p)%nat -> rt cf 1 == -1) /\ ((1 <= info_log_n p)%nat -> rt cb 1 == -1) /\
  (forall t, (t < info_log_n p)%nat -> rt cf (S t) * rt cf (S t) == rt cf t) /\
  (forall t, (t < info_log_n p)%nat -> rt cb (S t) * rt cb (S t) == rt cb t).
Proof.
  destruct base_root as (g & r & Eg & Hg & Gen & Hr & Er & EP & E1 & Em1). set (L := info_log_n p) in *.
  destruct (m_inv_ok p M P r) as (ri & Ei & Ri & Ii); [unfold residue; lia|lia|].
  assert (II : r * ri == 1). { transitivity ((r * ri) mod p); [symmetry; apply eqm_mod|]. rewrite Ii. reflexivity. }
  destruct (table_ok L r ltac:(lia)) as (cb & Eb & Lb & Rb & Kb).
  destruct (table_ok L ri ltac:(auto)) as (cf & Ef & Lf & Rf & Kf).
  exists g, (fst cf), (fst cb). split; auto. split; auto. split; auto.
  assert (Cb : coeff p false = Some (fst cb)).
  { unfold coeff. rewrite Eg. cbn [obind]. fold L. rewrite Er. cbn [obind]. rewrite Eb. destruct cb; reflexivity. }
  assert (Cf : coeff p true = Some (fst cf)).
  { unfold coeff. rewrite Eg. cbn [obind]. fold L. rewrite Er. cbn [obind]. rewrite Ei. cbn [obind].
    rewrite Ef. destruct cf; reflexivity. }
  split; auto. split; auto. split; auto. split; auto. split; auto. split; auto.
  assert (RB : forall t, (t <= L)%nat -> rt (fst cb) t == pw r (2 ^ (L - t))).
  { intros [|t] Ht; cbn [rt]; [rewrite Nat.sub_0_r; symmetry; exact E1|].
    rewrite Kb by lia. now replace (L - 1 - t)%nat with (L - S t)%nat by lia. }
  assert (Inv : forall k, pw ri k * pw r k == 1).
  { intros k. rewrite <- pw_mul_l. rewrite Z.mul_comm, II, pw_one. reflexivity. }
  assert (RF : forall t, (t <= L)%nat -> rt (fst cf) t == pw ri (2 ^ (L - t))).
  { intros [|t] Ht; cbn [rt].
    - rewrite Nat.sub_0_r. transitivity (pw ri (2 ^ L) * pw r (2 ^ L)); [symmetry; apply Inv|]. rewrite E1, Z.mul_1_r. reflexivity.
    - rewrite Kf by lia. now replace (L - 1 - t)%nat with (L - S t)%nat by lia. }
  assert (Sq : forall x t, (t < L)%nat -> pw x (2 ^ (L - S t)) * pw x (2 ^ (L - S t)) = pw x (2 ^ (L - t))).
  { intros x t Ht. rewrite <- pw_add. f_equal. replace (L - t)%nat with (S (L - S t)) by lia. rewrite Nat.pow_succ_r'. lia. }
  split; [intros t Ht; rewrite RB by auto; now apply EP|].
  split; [intros t Ht; rewrite RB, RF by auto; apply Inv|].
  split.
  { intros HL. rewrite RF by auto. pose proof (Inv (2 ^ (L - 1))%nat) as I1. rewrite Em1 in I1 by auto.
    revert I1. generalize (pw ri (2 ^ (L - 1))). intros z I1.
    replace z with (- (z * -1)) by lia. rewrite I1. reflexivity. }
  split; [intros HL; rewrite RB by auto; auto|].
  split; intros t Ht; [rewrite !RF by lia|rewrite !RB by lia]; rewrite Sq by auto; reflexivity.
Qed.
End Tab.
