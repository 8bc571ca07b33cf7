From Coq Require Import Znumtheory.
From Verif Require Import Base BaseLemmas SearchModel BitModel BitProof NumTheory ModularModel.
Local Open Scope Z_scope.
Ltac Zify.zify_post_hook ::= Z.div_mod_to_equations.

Definition residue (m a : Z) : Prop := 0 <= a < m.

Section Ring.
Variable m : Z.
Hypothesis M : 1 <= m < 2 ^ 31.

Lemma u32_id x : 0 <= x < 2 ^ 32 -> u32 x = x.
Proof. intros. now apply Z.mod_small. Qed.

Lemma mod_residue x : residue m (x mod m).
Proof. unfold residue. apply Z.mod_pos_bound. lia. Qed.

Lemma m_signed_ok v : m_signed m v = v mod m.
Proof.
  unfold m_signed. pose proof (Z.rem_bound_abs v m). pose proof (mod_residue v) as R. unfold residue in R.
  assert (E : Z.rem v m = v mod m \/ (Z.rem v m < 0 /\ Z.rem v m + m = v mod m)).
  { pose proof (Z.quot_rem' v m).
    destruct (Z.lt_ge_cases (Z.rem v m) 0).
    - right. split; auto. apply Z.mod_unique_pos with (q := Z.quot v m - 1); lia.
    - left. apply Z.mod_unique_pos with (q := Z.quot v m); lia. }
  destruct (Z.rem v m <? 0) eqn:E1; rewrite u32_id; lia.
Qed.
Lemma m_unsigned_ok v : m_unsigned m v = v mod m.
Proof. unfold m_unsigned. pose proof (mod_residue v) as R. unfold residue in R. apply u32_id; lia. Qed.
Lemma m_add_ok a b : residue m a -> residue m b -> m_add m a b = (a + b) mod m.
Proof.
  unfold residue, m_add. intros Ha Hb. rewrite u32_id by lia.
  destruct (m <=? a + b) eqn:E.
  - rewrite u32_id by lia. symmetry. symmetry. apply Z.mod_unique_pos with (q := 1); lia.
  - symmetry. apply Z.mod_small. lia.
Qed.
Lemma m_sub_ok a b : residue m a -> residue m b -> m_sub m a b = (a - b) mod m.
Proof.
  unfold residue, m_sub. intros Ha Hb. rewrite (u32_id (m - b)), u32_id by lia.
  destruct (m <=? a + (m - b)) eqn:E.
  - rewrite u32_id by lia. apply Z.mod_unique_pos with (q := 0); lia.
  - apply Z.mod_unique_pos with (q := -1); lia.
Qed.
Lemma m_neg_ok a : residue m a -> m_neg m a = (- a) mod m.
Proof.
  unfold residue, m_neg. intros Ha. rewrite m_unsigned_ok, u32_id by lia.
  replace (m - a) with (- a + 1 * m) by ring. apply Z_mod_plus_full.
Qed.
Lemma m_mul_ok a b : residue m a -> residue m b -> m_mul m a b = Some ((a * b) mod m).
Proof.
  unfold residue, m_mul. intros Ha Hb.
  assert (B : 0 <= a * b < 2 ^ 62).
  { split; [nia|]. apply Z.le_lt_trans with ((2 ^ 31 - 1) * (2 ^ 31 - 1)); [|reflexivity].
    apply Z.mul_le_mono_nonneg; lia. }
  unfold mach. replace ((- 2 ^ (64 - 1) <=? a * b) && (a * b <? 2 ^ (64 - 1))) with true by (clear -B; lia).
  cbn [obind]. f_equal. pose proof (mod_residue (a * b)) as R. unfold residue in R.
  set (x := a * b) in *. clearbody x.
  destruct (m <=? x) eqn:E; rewrite u32_id by lia; auto. symmetry. apply Z.mod_small. lia.
Qed.

Lemma mul_mod_eqm a b c d : eqm m a c -> eqm m b d -> eqm m ((a * b) mod m) (c * d).
Proof. intros. apply eqm_mod_r. now apply eqm_mul. Qed.

Lemma m_pow_ok a p : residue m a -> 0 <= p < 2 ^ 63 -> m_pow m a p = Some ((a ^ p) mod m).
Proof.
  intros Ha Hp. unfold m_pow. replace (0 <=? p) with true by lia. cbn [guard obind].
  match goal with |- loop _ ?b _ = _ => set (body := b) end.
  assert (K : forall n t u q, 0 <= q < 2 ^ Z.of_nat n -> residue m t -> residue m u ->
    forall fuel, (n < fuel)%nat -> loop fuel body (t, u, q) = Some ((t * u ^ q) mod m)).
  { induction n as [|n IH]; intros t u q Hq Ht Hu fuel Hf; (destruct fuel as [|fuel]; [lia|]); cbn [loop].
    - change (2 ^ Z.of_nat 0) with 1 in Hq. assert (q = 0) by lia. subst q. unfold body at 1.
      cbn [Z.eqb]. rewrite Z.pow_0_r, Z.mul_1_r. f_equal. symmetry. now apply Z.mod_small.
    - unfold body at 1. destruct (q =? 0) eqn:E0.
      + replace q with 0 by lia. rewrite Z.pow_0_r, Z.mul_1_r. f_equal. symmetry. now apply Z.mod_small.
      + rewrite Nat2Z.inj_succ, Z.pow_succ_r in Hq by lia.
        assert (Hq2 : 0 <= Z.shiftr q 1 < 2 ^ Z.of_nat n).
        { rewrite Z.shiftr_div_pow2 by lia. change (2 ^ 1) with 2. lia. }
        assert (Q : q = 2 * Z.shiftr q 1 + (if Z.odd q then 1 else 0)).
        { rewrite Z.shiftr_div_pow2 by lia. change (2 ^ 1) with 2. rewrite Zodd_mod.
          destruct (Zeq_bool (q mod 2) 1) eqn:E1; [apply Zeq_bool_eq in E1|apply Zeq_bool_neq in E1]; lia. }
        assert (EU : forall t', eqm m t' (t * (if Z.odd q then u else 1)) -> residue m t' ->
           loop fuel body (t', (u * u) mod m, Z.shiftr q 1) = Some ((t * u ^ q) mod m)).
        { intros t' Et Rt. rewrite (IH t' ((u * u) mod m) (Z.shiftr q 1)); auto; [|apply mod_residue|lia].
          f_equal. apply eqm_mod_eq; [lia|].
          eapply eqm_trans; [apply eqm_mul; [apply Et|apply eqm_pow, eqm_mod]|].
          rewrite Q at 3. rewrite Z.pow_add_r by (destruct (Z.odd q); lia).
          rewrite Z.pow_mul_r by lia. replace (u ^ 2) with (u * u) by ring.
          replace (u ^ (if Z.odd q then 1 else 0)) with (if Z.odd q then u else 1)
            by (destruct (Z.odd q); ring).
          match goal with |- eqm m ?x ?y => replace y with x by ring end. apply eqm_refl. }
        destruct (Z.odd q) eqn:Eo.
        * rewrite (m_mul_ok t u) by auto. cbn [obind]. rewrite (m_mul_ok u u) by auto. cbn [obind].
          apply EU; [apply eqm_mod|apply mod_residue].
        * cbn [obind]. rewrite (m_mul_ok u u) by auto. cbn [obind].
          apply EU; auto. rewrite Z.mul_1_r. apply eqm_refl. }
  rewrite (K 63%nat) by (try exact Hp; try exact Ha; try (rewrite m_signed_ok; apply mod_residue); lia).
  f_equal. rewrite m_signed_ok. apply eqm_mod_eq; [lia|].
  replace (a ^ p) with (1 * a ^ p) at 2 by ring. apply eqm_mul; [apply eqm_mod|apply eqm_refl].
Qed.

Lemma m_eval_ok e : m_typed e -> m_eval m e = Some (z_eval e mod m).
Proof.
  assert (K : forall x y, x mod m = y mod m <-> eqm m x y) by (intros; symmetry; apply eqm_mod_eq; lia).
  induction e; cbn [m_typed m_eval z_eval]; intros T.
  - now rewrite m_signed_ok.
  - now rewrite m_unsigned_ok.
  - destruct T as [T1 T2]. rewrite IHe1, IHe2 by auto. cbn [obind].
    rewrite m_add_ok by apply mod_residue. f_equal. apply K. apply eqm_add; apply eqm_mod.
  - destruct T as [T1 T2]. rewrite IHe1, IHe2 by auto. cbn [obind].
    rewrite m_sub_ok by apply mod_residue. f_equal. apply K. apply eqm_sub; apply eqm_mod.
  - destruct T as [T1 T2]. rewrite IHe1, IHe2 by auto. cbn [obind].
    rewrite m_mul_ok by apply mod_residue. f_equal. apply K. apply eqm_mul; apply eqm_mod.
  - rewrite IHe by auto. cbn [obind]. rewrite m_neg_ok by apply mod_residue. f_equal. apply K.
    apply eqm_opp, eqm_mod.
  - rewrite IHe by auto. cbn [obind]. unfold m_inc. rewrite m_signed_ok.
    rewrite m_add_ok by apply mod_residue. f_equal. apply K. apply eqm_add; apply eqm_mod.
  - rewrite IHe by auto. cbn [obind]. unfold m_dec. rewrite m_signed_ok.
    rewrite m_sub_ok by apply mod_residue. f_equal. apply K. apply eqm_sub; apply eqm_mod.
  - destruct T as [T1 T2]. rewrite IHe by auto. cbn [obind].
    rewrite m_pow_ok by (auto; apply mod_residue). f_equal. apply K. apply eqm_pow, eqm_mod.
Qed.

Hypothesis P : prime m.

Lemma residue_div a : residue m a -> a <> 0 -> ~ (m | a).
Proof. unfold residue. intros. apply not_div_small; auto; lia. Qed.

Lemma m_inv_ok a : residue m a -> a <> 0 -> exists i, m_inv m a = Some i /\ residue m i /\ (a * i) mod m = 1.
Proof.
  intros Ha Hn. pose proof (p_ge2 _ P). unfold m_inv. rewrite u32_id by lia. rewrite m_pow_ok by (auto; lia).
  eexists; split; [reflexivity|]. split; [apply mod_residue|].
  transitivity (1 mod m); [|apply Z.mod_small; lia]. apply eqm_mod_eq; [lia|].
  eapply eqm_trans; [apply eqm_mul; [apply eqm_refl|apply eqm_mod]|].
  apply fermat_inv; auto. now apply residue_div.
Qed.

Lemma m_div_ok a b : residue m a -> residue m b -> b <> 0 ->
  exists q, m_div m a b = Some q /\ residue m q /\ (q * b) mod m = a.
Proof.
  intros Ha Hb Hn. unfold m_div. destruct (m_inv_ok b Hb Hn) as (i & -> & Ri & E). cbn [obind].
  rewrite m_mul_ok by auto. eexists; split; [reflexivity|]. split; [apply mod_residue|].
  transitivity (a mod m); [|now apply Z.mod_small]. apply eqm_mod_eq; [lia|].
  eapply eqm_trans; [apply eqm_mul; [apply eqm_mod|apply eqm_refl]|].
  replace (a * i * b) with (a * (b * i)) by ring. replace a with (a * 1) at 2 by ring.
  apply eqm_mul; [apply eqm_refl|]. apply eqm_mod_eq; [lia|]. rewrite E. symmetry. apply Z.mod_small.
  pose proof (p_ge2 _ P). lia.
Qed.

(** ** Table of inverses *)
Definition inv_tab (tb : list Z) : Prop :=
  (2 <= length tb)%nat /\
  forall i v, get tb i = Some v -> residue m v /\
    ((0 < i)%nat -> Z.of_nat i < m -> (Z.of_nat i * v) mod m = 1) /\ (i = 0%nat -> v = 0).

Lemma util_init_ok : inv_tab (util_init m).
Proof.
  pose proof (p_ge2 _ P). unfold util_init. rewrite !m_signed_ok. split; [simpl; lia|].
  intros [|[|i]] v G; simpl in G; [| |destruct i; discriminate]; injection G as <-.
  - split; [apply mod_residue|]. split; [lia|]. intros. apply Z.mod_0_l. lia.
  - split; [apply mod_residue|]. split; [|lia]. intros. change (Z.of_nat 1) with 1.
    rewrite Z.mul_1_l, Z.mod_mod by lia. apply Z.mod_small. lia.
Qed.

Lemma util_set_inv_ok tb n : inv_tab tb -> Z.of_nat n < m ->
  exists tb', util_set_inv m tb n = Some tb' /\ inv_tab tb' /\ (n < length tb')%nat.
Proof.
  intros [L I] Hn. pose proof (p_ge2 _ P). unfold util_set_inv.
  destruct (n <? length tb)%nat eqn:E.
  - exists tb. split; [reflexivity|]. split; [split; auto|lia].
  - set (k := length tb) in *.
    match goal with |- context [for_up _ _ ?b _] => set (body := b) end.
    destruct (@for_up_rule _ (fun i t => length t = (n + 1)%nat /\
      forall j v, get t j = Some v -> (j < i)%nat -> residue m v /\
        ((0 < j)%nat -> Z.of_nat j < m -> (Z.of_nat j * v) mod m = 1) /\ (j = 0%nat -> v = 0))
      body (n + 1 - k)%nat k (tb ++ repeat 0 (n + 1 - k))) as (tb' & E1 & L1 & I1).
    + split; [rewrite app_length, repeat_length; lia|]. intros j v G Hj.
      rewrite get_app_l in G by (unfold k in *; lia). now apply I.
    + intros i t Hi [Lt It].
      assert (Hi3 : 2 <= Z.of_nat i) by (unfold k in *; lia).
      assert (RM : Z.rem m (Z.of_nat i) = m mod Z.of_nat i) by (apply Z.rem_mod_nonneg; lia).
      assert (QM : Z.quot m (Z.of_nat i) = m / Z.of_nat i) by (apply Z.quot_div_nonneg; lia).
      assert (RB : 0 <= m mod Z.of_nat i < Z.of_nat i) by (apply Z.mod_pos_bound; lia).
      assert (DM : m = Z.of_nat i * (m / Z.of_nat i) + m mod Z.of_nat i) by (apply Z.div_mod; lia).
      unfold body. rewrite RM, QM. clear RM QM.
      set (r := m mod Z.of_nat i) in *. set (q := m / Z.of_nat i) in *. clearbody r q.
      destruct (@get_lt _ t (Z.to_nat r)) as [v G]; [lia|]. rewrite G. cbn [obind].
      destruct (It _ _ G) as (Rv & Iv & _); [lia|].
      rewrite m_neg_ok, m_signed_ok by auto. rewrite m_mul_ok by apply mod_residue. cbn [obind].
      rewrite set_some by lia. eexists; split; [reflexivity|]. split; [now rewrite lset_length|].
      intros j w Gj Hj. rewrite get_lset in Gj.
      destruct (i =? j)%nat eqn:Ej; cbn [andb] in Gj.
      2:{ apply It; auto; lia. }
      rewrite (proj2 (Nat.ltb_lt i (length t))) in Gj by (clear -Lt Hi; lia). injection Gj as <-.
      apply Nat.eqb_eq in Ej. subst j. split; [apply mod_residue|]. split; [|lia]. intros _ Hm.
      transitivity (1 mod m); [|apply Z.mod_small; lia]. apply eqm_mod_eq; [lia|].
      (* m = q i + r, r <> 0 *)
      assert (Hr : r <> 0).
      { intros R0. assert (D : (Z.of_nat i | m)) by (exists q; lia).
        apply prime_divisors in D; auto. lia. }
      specialize (Iv ltac:(lia) ltac:(lia)). rewrite Z2Nat.id in Iv by lia.
      assert (Iv' : eqm m (r * v) 1). { apply eqm_mod_eq; [lia|]. rewrite Iv. symmetry; apply Z.mod_small; lia. }
      eapply eqm_trans; [apply eqm_mul; [apply eqm_refl|apply eqm_mod]|].
      eapply eqm_trans; [apply eqm_mul; [apply eqm_refl|apply eqm_mul; apply eqm_mod]|].
      eapply eqm_trans; [|apply Iv'].
      unfold eqm. exists (- v). rewrite DM. ring.
    + exists tb'. split; auto. replace (k + (n + 1 - k))%nat with (n + 1)%nat in I1 by lia.
      split; [|lia]. split; [lia|]. intros j v G. apply I1; auto.
      apply get_some_lt in G. lia.
Qed.
End Ring.
