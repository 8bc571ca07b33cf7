From Coq Require Import Ring.
From Verif Require Import Base BaseLemmas ListExtra FftModel.
Set Implicit Arguments.

Lemma p2 k : 0 < 2 ^ k. Proof. apply Nat.neq_0_lt_0, Nat.pow_nonzero. lia. Qed.
Lemma size_ok size : exists K, fft_n size = Some (2 ^ K) /\ size <= 2 ^ K /\ forall k, size <= 2 ^ k -> 2 ^ K <= 2 ^ k.
Proof.
  unfold fft_n. destruct (@loop_rule nat nat (fun n => exists K, n = 2 ^ K /\ forall k, size <= 2 ^ k -> 2 ^ K <= 2 ^ k) (fun n => size - n) (fun n => exists K, n = 2 ^ K /\ size <= 2 ^ K /\ forall k, size <= 2 ^ k -> 2 ^ K <= 2 ^ k) (fun n => if n <? size then Some (inl (n * 2)) else Some (inr n))) with (fuel := S size) (s := 1) as (r & E & K & -> & H1 & H2).
  - intros n (K & -> & H). destruct (Nat.ltb_spec (2 ^ K) size) as [L|L]; (eexists; split; [reflexivity|]).
    + split; [|pose proof (p2 K); lia]. exists (S K). split; [cbn [Nat.pow]; lia|]. intros k Hk. assert (K < k) by (apply (Nat.pow_lt_mono_r_iff 2); lia). apply Nat.pow_le_mono_r; lia.
    + exists K. auto.
  - exists 0. split; auto. intros k _. pose proof (p2 k). cbn. lia.
  - lia.
  - exists K. auto.
Qed.

(** ** Reversal of the bits *)
Fixpoint rev (k q : nat) : nat := match k with O => 0 | S k => (q mod 2) * 2 ^ k + rev k (q / 2) end.
Lemma rev_lt k : forall q, rev k q < 2 ^ k.
Proof. induction k as [|k IH]; intros q; cbn [rev Nat.pow]; [lia|]. specialize (IH (q / 2)). pose proof (Nat.mod_upper_bound q 2 ltac:(lia)). destruct (q mod 2) as [|[|]]; lia. Qed.
Lemma half2 q : (2 * q) / 2 = q /\ (2 * q) mod 2 = 0 /\ (2 * q + 1) / 2 = q /\ (2 * q + 1) mod 2 = 1.
Proof.
  pose proof (Nat.div_mod (2 * q) 2). pose proof (Nat.div_mod (2 * q + 1) 2). pose proof (Nat.mod_upper_bound (2 * q) 2). pose proof (Nat.mod_upper_bound (2 * q + 1) 2). lia.
Qed.
Lemma rev_even k q : rev (S k) (2 * q) = rev k q.
Proof. destruct (half2 q) as (A & B & _). cbn [rev]. rewrite A, B. lia. Qed.
Lemma rev_odd k q : rev (S k) (2 * q + 1) = 2 ^ k + rev k q.
Proof. destruct (half2 q) as (_ & _ & A & B). cbn [rev]. rewrite A, B. lia. Qed.
Lemma parity q : q = 2 * (q / 2) \/ q = 2 * (q / 2) + 1.
Proof. pose proof (Nat.div_mod q 2). pose proof (Nat.mod_upper_bound q 2). lia. Qed.
(** the other end *)
Lemma rev_high k : forall b q, b < 2 -> q < 2 ^ k -> rev (S k) (b * 2 ^ k + q) = 2 * rev k q + b.
Proof.
  induction k as [|k IH]; intros b q Hb Hq.
  - cbn [Nat.pow] in *. replace q with 0 by lia. destruct b as [|[|]]; [reflexivity|reflexivity|lia].
  - cbn [Nat.pow] in Hq. destruct (parity q) as [E|E]; rewrite E.
    + replace (b * 2 ^ S k + 2 * (q / 2)) with (2 * (b * 2 ^ k + q / 2)) by (cbn [Nat.pow]; lia). rewrite !rev_even. apply IH; lia.
    + replace (b * 2 ^ S k + (2 * (q / 2) + 1)) with (2 * (b * 2 ^ k + q / 2) + 1) by (cbn [Nat.pow]; lia). rewrite !rev_odd. rewrite IH by lia. cbn [Nat.pow]. lia.
Qed.
Lemma rev_rev k : forall q, q < 2 ^ k -> rev k (rev k q) = q.
Proof.
  induction k as [|k IH]; intros q Hq; [cbn in *; lia|]. cbn [Nat.pow] in Hq. pose proof (rev_lt k (q / 2)). destruct (parity q) as [E|E].
  - rewrite E at 1. rewrite rev_even. replace (rev k (q / 2)) with (0 * 2 ^ k + rev k (q / 2)) by lia. rewrite rev_high by lia. rewrite IH by lia. lia.
  - rewrite E at 1. rewrite rev_odd. replace (2 ^ k) with (1 * 2 ^ k) by lia. rewrite rev_high by lia. rewrite IH by lia. lia.
Qed.
Lemma lxor_pow k i : i < 2 ^ k -> Nat.lxor i (2 ^ k) = i + 2 ^ k /\ Nat.lxor (i + 2 ^ k) (2 ^ k) = i.
Proof.
  intros Hi. assert (E : Nat.lxor i (2 ^ k) = i + 2 ^ k).
  { symmetry. apply Nat.add_nocarry_lxor. apply Nat.bits_inj. intros b. rewrite Nat.land_spec, Nat.bits_0, Nat.pow2_bits_eqb. destruct (Nat.eqb_spec k b) as [<-|]; [|apply andb_false_r]. rewrite andb_true_r. apply Nat.testbit_false. rewrite Nat.div_small by auto. reflexivity. }
  split; [exact E|]. rewrite <- E. rewrite Nat.lxor_assoc, Nat.lxor_nilpotent. apply Nat.lxor_0_r.
Qed.
Notation rstep := (fun '(i, k) => let i := Nat.lxor i k in if i <? k then Some (inl (i, k / 2)) else Some (inr i)).
Lemma rev_loop k : forall j fuel, k < fuel -> j + 1 < 2 ^ k -> loop fuel rstep (rev k j, 2 ^ k / 2) = Some (rev k (j + 1)).
Proof.
  induction k as [|k IH]; intros j fuel Hf Hj; [cbn in Hj; lia|]. destruct fuel as [|fuel]; [lia|]. cbn [loop]. replace (2 ^ S k / 2) with (2 ^ k) by (cbn [Nat.pow]; symmetry; apply (half2 (2 ^ k))). cbn [Nat.pow] in Hj. pose proof (rev_lt k (j / 2)) as L. destruct (@lxor_pow k _ L) as (X1 & X2). cbv zeta.
  destruct (parity j) as [E|E].
  - assert (R : rev (S k) j = rev k (j / 2)) by (rewrite E at 1; apply rev_even). assert (R2 : rev (S k) (j + 1) = 2 ^ k + rev k (j / 2)) by (rewrite E at 1; apply rev_odd).
    rewrite R, R2, X1. destruct (Nat.ltb_spec (rev k (j / 2) + 2 ^ k) (2 ^ k)); [lia|]. f_equal. lia.
  - assert (R : rev (S k) j = rev k (j / 2) + 2 ^ k) by (rewrite E at 1; rewrite rev_odd; lia). rewrite R, X2. destruct (Nat.ltb_spec (rev k (j / 2)) (2 ^ k)); [|lia]. rewrite IH by lia. replace (j + 1) with (2 * (j / 2 + 1)) by lia. now rewrite rev_even.
Qed.
Lemma rev_next_ok k j : j + 1 < 2 ^ k -> rev_next (2 ^ k) (rev k j) = Some (rev k (j + 1)).
Proof. intros Hj. unfold rev_next. apply rev_loop; auto. pose proof (Nat.pow_gt_lin_r 2 k). lia. Qed.
Lemma rev_0 k : rev k 0 = 0.
Proof. induction k as [|k IH]; auto. Qed.
Lemma rev_last k : rev k (2 ^ k - 1) = 2 ^ k - 1.
Proof. induction k as [|k IH]; auto. pose proof (p2 k). replace (2 ^ S k - 1) with (2 * (2 ^ k - 1) + 1) by (cbn [Nat.pow]; lia). rewrite rev_odd, IH. cbn [Nat.pow]. lia. Qed.

Section L.
Variable A : Type.
Lemma bitrev_ok k (f : list A) : length f = 2 ^ k -> exists g, bitrev (2 ^ k) f = Some g /\ length g = 2 ^ k /\ forall p, p < 2 ^ k -> get g p = get f (rev k p).
Proof.
  intros Lf. unfold bitrev. match goal with |- context [for_up _ _ ?bd _] => set (body := bd) end. pose proof (p2 k) as Pk.
  destruct (@for_up_rule _ (fun j (st : nat * list A) => let (i, g) := st in i = rev k (j - 1) /\ length g = 2 ^ k /\ forall p, p < 2 ^ k -> get g p = if (p <? j) && (rev k p <? j) then get f (rev k p) else get f p) body (2 ^ k - 1 - 1) 1 (0, f)) as ((i & g) & E & _ & Lg & G).
  - split; [symmetry; apply rev_0|]. split; [exact Lf|]. intros p Hp. destruct (Nat.ltb_spec p 1); [|reflexivity]. replace p with 0 by lia. now rewrite rev_0.
  - intros j (i & g) Hj (-> & Lg & G). unfold body. rewrite rev_next_ok by lia. replace (j - 1 + 1) with j by lia. replace (S j - 1) with j by lia. cbn [obind]. set (i := rev k j) in *. pose proof (rev_lt k j) as Li. fold i in Li. assert (Ri : rev k i = j) by (apply rev_rev; lia).
    assert (Inj : forall p, p < 2 ^ k -> rev k p = j -> p = i) by (intros p Hp K; rewrite <- (@rev_rev k p Hp), K; reflexivity).
    destruct (Nat.ltb_spec i j) as [L|L].
    + pose proof (G i Li) as Gi. pose proof (G j ltac:(lia)) as Gj. rewrite Ri in Gi. fold i in Gj. destruct (Nat.ltb_spec j j); [lia|]. rewrite andb_false_r in Gi. cbn [andb] in Gj.
      destruct (@get_lt _ f i) as (x & Ex); [lia|]. destruct (@get_lt _ f j) as (y & Ey); [lia|]. rewrite Gi, Gj, Ex, Ey. cbn [obind]. rewrite set_some by lia. cbn [obind]. rewrite set_some by (rewrite lset_length; lia). cbn [obind]. eexists. split; [reflexivity|]. split; [reflexivity|]. split; [now rewrite !lset_length|].
      intros p Hp. destruct (Nat.eq_dec p j) as [->|Nj]; [rewrite get_lset_eq by (rewrite lset_length; lia); fold i; destruct (Nat.ltb_spec j (S j)); [|lia]; destruct (Nat.ltb_spec i (S j)); [|lia]; cbn [andb]; now rewrite Ex|]. rewrite get_lset_neq by auto.
      destruct (Nat.eq_dec p i) as [->|Ni]; [rewrite get_lset_eq by lia; rewrite Ri; destruct (Nat.ltb_spec i (S j)); [|lia]; destruct (Nat.ltb_spec j (S j)); [|lia]; cbn [andb]; now rewrite Ey|]. rewrite get_lset_neq by auto. rewrite G by auto.
      assert (Np : rev k p <> j) by (intros K; apply Ni, Inj; auto). destruct (Nat.ltb_spec p j), (Nat.ltb_spec p (S j)), (Nat.ltb_spec (rev k p) j), (Nat.ltb_spec (rev k p) (S j)); cbn [andb]; auto; lia.
    + eexists. split; [reflexivity|]. split; [reflexivity|]. split; [exact Lg|]. intros p Hp. rewrite G by auto.
      destruct (Nat.eq_dec p j) as [->|Nj].
      * fold i. destruct (Nat.ltb_spec j j); [lia|]. cbn [andb]. destruct (Nat.ltb_spec j (S j)); [|lia]. destruct (Nat.ltb_spec i (S j)); cbn [andb]; auto. replace i with j by lia. reflexivity.
      * destruct (Nat.eq_dec (rev k p) j) as [K|K]; [|destruct (Nat.ltb_spec p j), (Nat.ltb_spec p (S j)), (Nat.ltb_spec (rev k p) j), (Nat.ltb_spec (rev k p) (S j)); cbn [andb]; auto; lia].
        pose proof (Inj p Hp K) as ->. rewrite K. destruct (Nat.ltb_spec j j); [lia|]. rewrite andb_false_r. destruct (Nat.ltb_spec i (S j)); cbn [andb]; auto. lia.
  - rewrite E. cbn [obind]. exists g. split; [reflexivity|]. split; [exact Lg|]. intros p Hp. rewrite G by auto. replace (1 + (2 ^ k - 1 - 1)) with (max 1 (2 ^ k - 1)) by lia.
    pose proof (rev_lt k p). destruct (Nat.ltb_spec p (max 1 (2 ^ k - 1))), (Nat.ltb_spec (rev k p) (max 1 (2 ^ k - 1))); cbn [andb]; auto.
    + assert (Er : rev k p = 2 ^ k - 1) by lia. rewrite Er. f_equal. rewrite <- (@rev_rev k p Hp), Er. now rewrite rev_last.
    + assert (Ep : p = 2 ^ k - 1) by lia. now rewrite Ep, rev_last.
    + assert (Ep : p = 2 ^ k - 1) by lia. now rewrite Ep, rev_last.
Qed.
End L.
