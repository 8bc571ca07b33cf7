From Coq Require Import Znumtheory.
From Verif Require Import Base BaseLemmas SearchModel BitModel BitProof NumTheory ModularModel ModularProof.
Local Open Scope Z_scope.
(** No global division hook here: the contexts contain many [mod]s. *)
Ltac Zify.zify_post_hook ::= idtac.
(** [lia] after dropping everything that is not linear arithmetic. *)
Ltac drop :=
  repeat match goal with
  | K : eqm _ _ _ |- _ => clear K
  | K : eqm _ _ _ \/ _ |- _ => clear K
  | K : ?P \/ ?Q |- _ => clear K
  | K : prime _ |- _ => clear K
  | K : @eq bool _ _ |- _ => clear K
  | K : @eq (option _) _ _ |- _ => clear K
  | K : context [Z.modulo] |- _ => clear K
  | K : forall _, _ |- _ => clear K
  end;
  repeat match goal with
  | K := _ |- _ => clear K
  end.
Ltac zl := drop; lia.
Ltac divlia := Z.div_mod_to_equations; lia.

Section Sqrt.
Variable m : Z.
Hypothesis M : 1 <= m < 2 ^ 31.
Hypothesis P : prime m.
Hypothesis Odd : m mod 2 = 1.
Variable h : Z.
Hypothesis HH : m = 2 * h + 1.

Local Lemma m_ge3 : 3 <= m. Proof. pose proof (p_ge2 _ P). clear - H Odd. divlia. Qed.
Local Lemma h_eq : (m - 1) / 2 = h. Proof. clear - HH. divlia. Qed.

Lemma is_one x : residue m x -> (m_eq x (m_signed m 1) = true <-> eqm m x 1).
Proof.
  intros R. pose proof m_ge3. rewrite m_signed_ok by auto. rewrite Z.mod_small by lia.
  unfold m_eq. rewrite Z.eqb_eq. split; [intros ->; apply eqm_refl|].
  apply eqm_small; auto; lia.
Qed.
Lemma is_m1 x : residue m x -> (m_eq x (m_signed m (-1)) = true <-> eqm m x (-1)).
Proof.
  intros R. pose proof m_ge3. rewrite m_signed_ok by auto.
  unfold m_eq. rewrite Z.eqb_eq. split; [intros ->; apply eqm_mod|].
  intros E. apply (eqm_small m); auto; [apply Z.mod_pos_bound; lia|].
  eapply eqm_trans; [apply E|]. apply eqm_sym, eqm_mod.
Qed.

Lemma m_is_square_pow a : residue m a ->
  exists b, m_is_square m a = Some b /\ (b = true <-> eqm m (a ^ h) 1).
Proof.
  intros R. pose proof m_ge3. unfold m_is_square. rewrite u32_id by lia.
  rewrite h_eq. rewrite m_pow_ok by (auto; lia). cbn [obind]. eexists; split; [reflexivity|].
  rewrite is_one by (apply mod_residue; auto). split; intros E.
  - eapply eqm_trans; [apply eqm_sym, eqm_mod|apply E].
  - now apply eqm_mod_r.
Qed.

Lemma m_is_square_ok a : residue m a -> a <> 0 ->
  exists b, m_is_square m a = Some b /\ (b = true <-> exists y, residue m y /\ (y * y) mod m = a).
Proof.
  intros R N. destruct (m_is_square_pow a R) as (b & E & B). exists b. split; auto.
  rewrite B. rewrite <- h_eq. rewrite (euler_criterion _ P Odd) by (apply residue_div; auto).
  split.
  - intros (y & Ey). exists (y mod m). split; [apply mod_residue; auto|].
    apply (eqm_small m); [apply mod_residue; auto|auto|].
    apply eqm_mod_r. eapply eqm_trans; [|apply Ey]. apply eqm_mul; apply eqm_mod.
  - intros (y & Ry & Ey). exists y. apply eqm_mod_eq; [lia|]. rewrite Ey. symmetry. now apply Z.mod_small.
Qed.

Lemma m_is_square_zero : m_is_square m 0 = Some false.
Proof.
  pose proof m_ge3. destruct (m_is_square_pow 0) as (b & E & B); [unfold residue; lia|].
  rewrite E. f_equal. destruct b; auto. exfalso. assert (K : eqm m (0 ^ h) 1) by now apply B.
  rewrite Z.pow_0_l in K by lia. apply eqm_small in K; lia.
Qed.

Definition issq_ok (issq : Z -> option bool) : Prop :=
  forall a, residue m a -> a <> 0 -> exists b, issq a = Some b /\ (b = true <-> eqm m (a ^ h) 1).

Lemma find_nonsquare_ok issq fuel : issq_ok issq -> (Z.to_nat m <= fuel)%nat ->
  exists d, find_nonsquare m fuel issq = Some d /\ residue m d /\ d <> 0 /\ eqm m (d ^ h) (-1).
Proof.
  intros Q Hf. pose proof m_ge3.
  destruct (nonresidue_exists _ P Odd) as (d0 & R0 & E0). rewrite h_eq in E0.
  unfold find_nonsquare.
  match goal with |- context [loop _ ?b _] => set (body := b) end.
  destruct (@loop_rule _ _ (fun d => 2 <= d <= d0) (fun d => Z.to_nat (m - d))
    (fun d => residue m d /\ d <> 0 /\ eqm m (d ^ h) (-1)) body) with
    (fuel := fuel) (s := m_signed m 2) as (d & E & K).
  - intros d Hd. unfold body.
    destruct (Q d) as (b & -> & B); [unfold residue; lia|lia|]. cbn [obind].
    destruct b.
    + eexists; split; [reflexivity|]. cbn beta iota.
      assert (d <> d0).
      { intros ->. apply (one_neq_m1 _ P Odd). eapply eqm_trans; [apply eqm_sym, B; auto|auto]. }
      rewrite m_signed_ok by auto. rewrite (Z.mod_small 1) by lia.
      rewrite m_add_ok by (unfold residue; lia). rewrite Z.mod_small by lia. lia.
    + eexists; split; [reflexivity|]. cbn beta iota. unfold residue. split; [lia|]. split; [lia|].
      pose proof (pow_half _ P Odd d) as PH. rewrite h_eq in PH.
      destruct PH as [C|C]; [apply residue_div; auto; unfold residue; lia| |auto].
      apply B in C. discriminate.
  - rewrite m_signed_ok by auto. rewrite Z.mod_small by lia. lia.
  - rewrite m_signed_ok by auto. rewrite Z.mod_small by lia. lia.
  - eauto.
Qed.

Lemma pow2_split k : 0 <= k -> 2 ^ (k + 1) = 2 * 2 ^ k.
Proof. intros. rewrite Z.pow_add_r by lia. lia. Qed.

Lemma sqrt_body_ok issq fuel x : issq_ok issq -> (Z.to_nat m <= fuel)%nat ->
  residue m x -> x <> 0 -> eqm m (x ^ h) 1 ->
  exists r, sqrt_body m fuel issq x = Some r /\ residue m r /\ (r * r) mod m = x.
Proof.
  intros Q Hf Rx Nx Ex. pose proof m_ge3. unfold sqrt_body.
  assert (Fin : forall r, eqm m (r * r) x -> (r * r) mod m = x).
  { intros r E. apply (eqm_small m); [apply mod_residue; auto|auto|]. now apply eqm_mod_r. }
  destruct ((m mod 8 =? 3) || (m mod 8 =? 7)) eqn:E37.
  { assert (exists e, (m + 1) / 4 = e /\ e + e = 1 + h) as (e & E4 & EE).
    { eexists; split; [reflexivity|]. clear - HH E37. apply orb_prop in E37. rewrite !Z.eqb_eq in E37. divlia. }
    clear E37. rewrite u32_id by lia. rewrite E4. rewrite m_pow_ok by (auto; lia).
    eexists; split; [reflexivity|]. split; [apply mod_residue; auto|]. apply Fin.
    eapply eqm_trans; [apply eqm_mul; apply eqm_mod|].
    rewrite <- Z.pow_add_r by lia. rewrite EE.
    rewrite Z.pow_add_r, Z.pow_1_r by lia.
    replace x with (x * 1) at 3 by ring. apply eqm_mul; [apply eqm_refl|auto]. }
  destruct (m mod 8 =? 5) eqn:E5.
  { assert (exists e e2, (m - 1) / 4 = e /\ (m + 3) / 8 = e2 /\ e2 + e2 = 1 + e /\ e + e = h /\ 0 <= e) as (e & e2 & Q4 & Q8 & EE2 & EE & E0).
    { do 2 eexists; split; [reflexivity|]. split; [reflexivity|].
      clear - HH E5 M. rewrite Z.eqb_eq in E5. divlia. }
    assert (M5 : m mod 8 = 5) by now apply Z.eqb_eq.
    rewrite !u32_id by lia. rewrite Q4, Q8. clear E37 E5. rewrite m_pow_ok by (auto; lia). cbn [obind].
    set (y := x ^ e2 mod m).
    assert (Ry : residue m y) by (apply mod_residue; auto).
    rewrite m_mul_ok by auto. cbn [obind].
    assert (Ey : eqm m (y * y) (x * x ^ e)).
    { eapply eqm_trans; [apply eqm_mul; apply eqm_mod|]. rewrite <- Z.pow_add_r by lia. rewrite EE2.
      rewrite Z.pow_add_r, Z.pow_1_r by lia. apply eqm_refl. }
    assert (Hc : eqm m (x ^ e) 1 \/ eqm m (x ^ e) (-1)).
    { apply sq_one; auto. rewrite <- Z.pow_add_r by lia. rewrite EE. auto. }
    destruct (m_eq ((y * y) mod m) x) eqn:Eq; cbn [negb].
    - unfold m_eq in Eq. exists y. split; auto. split; auto. now apply Z.eqb_eq.
    - rewrite m_signed_ok by auto. rewrite (Z.mod_small 2) by lia.
      rewrite m_pow_ok by (auto; unfold residue; clear - M HH H E0 EE; lia). cbn [obind].
      rewrite m_mul_ok by (auto; apply mod_residue; auto).
      eexists; split; [reflexivity|]. split; [apply mod_residue; auto|]. apply Fin.
      eapply eqm_trans; [apply eqm_mul; apply eqm_mod|].
      destruct Hc as [C|C].
      { exfalso. unfold m_eq in Eq. apply Z.eqb_neq in Eq. apply Eq. apply Fin.
        eapply eqm_trans; [apply Ey|]. replace x with (x * 1) at 3 by ring. apply eqm_mul; [apply eqm_refl|auto]. }
      eapply eqm_trans; [apply eqm_mul; (apply eqm_mul; [apply eqm_refl|apply eqm_mod])|].
      replace (y * 2 ^ e * (y * 2 ^ e)) with ((y * y) * (2 ^ e * 2 ^ e)) by ring.
      rewrite <- Z.pow_add_r by lia. rewrite EE.
      replace x with ((x * -1) * -1) at 1 by ring.
      apply eqm_mul; [|rewrite <- h_eq; apply two_nonresidue; auto].
      eapply eqm_trans; [apply Ey|]. replace (x * -1 * -1) with x by ring.
      apply eqm_mul; [apply eqm_refl|auto]. }
  (* m = 1 mod 8 *)
  clear E37 E5.
  destruct (find_nonsquare_ok issq fuel Q Hf) as (d & -> & Rd & Nd & Ed). cbn [obind].
  rewrite u32_id by lia.
  destruct (@odd_split (m - 1)) as (s & q & Hs & Hq & ES); [lia|].
  assert (S64 : s < 31).
  { apply (Z.pow_lt_mono_r_iff 2); [lia|lia|]. assert (0 < 2 ^ s) by (apply Z.pow_pos_nonneg; lia). clear - H0 Hq ES M. nia. }
  assert (CT : ctz (m - 1) = s).
  { rewrite ctz_ok by (unfold word64; lia). rewrite ES.
    replace s with (Z.of_nat (Z.to_nat s)) by lia. rewrite run_split; lia. }
  rewrite CT. set (t := 2 * q + 1) in *.
  assert (Ht : Z.shiftr (m - 1) s = t).
  { rewrite ES, Z.shiftr_div_pow2 by lia. rewrite Z.mul_comm. apply Z.div_mul.
    pose proof (Z.pow_pos_nonneg 2 s). lia. }
  rewrite Ht.
  assert (Pt : 0 < 2 ^ s) by (apply Z.pow_pos_nonneg; lia).
  assert (Hq0 : 0 <= t) by (unfold t; clear - Hq; lia).
  assert (t < 2 ^ 31) by (clear - M Pt Hq0 ES; nia).
  assert (S1 : 1 <= s).
  { destruct (Z.eq_dec s 0) as [E0|]; [|lia]. rewrite E0 in ES. change (2 ^ 0) with 1 in ES. unfold t in ES. lia. }
  assert (Hh : h = 2 ^ (s - 1) * t).
  { replace s with (s - 1 + 1) in ES by lia. rewrite pow2_split in ES by lia. lia. }
  rewrite m_pow_ok by (auto; clear - Hq0 H0; lia). cbn [obind].
  rewrite m_pow_ok by (auto; clear - Hq0 H0; lia). cbn [obind].
  set (a := x ^ t mod m). set (D := d ^ t mod m).
  assert (Ra : residue m a) by (apply mod_residue; auto).
  assert (RD : residue m D) by (apply mod_residue; auto).
  assert (Ea : eqm m a (x ^ t)) by apply eqm_mod.
  assert (ED : eqm m (D ^ 2 ^ (s - 1)) (-1)).
  { eapply eqm_trans; [apply eqm_pow, eqm_mod|]. rewrite <- Z.pow_mul_r by first [exact Hq0|apply Z.pow_nonneg; lia].
    rewrite Z.mul_comm, <- Hh. auto. }
  assert (Ea1 : eqm m (a ^ 2 ^ (s - 1)) 1).
  { eapply eqm_trans; [apply eqm_pow, Ea|]. rewrite <- Z.pow_mul_r by first [exact Hq0|apply Z.pow_nonneg; lia].
    rewrite Z.mul_comm, <- Hh. auto. }
  clearbody a D. clear ES Ht.
  assert (One : m_signed m 1 = 1) by (rewrite m_signed_ok by auto; apply Z.mod_small; lia).
  match goal with |- context [for_up _ _ ?b _] => set (body := b) end.
  destruct (@for_up_rule _ (fun i '(k, dt, du) =>
      0 <= k < 2 ^ Z.of_nat i /\ k mod 2 = 0 /\ residue m dt /\ residue m du /\
      eqm m dt (D ^ k) /\ eqm m du (D ^ 2 ^ Z.of_nat i) /\
      eqm m ((a * dt) ^ 2 ^ (s - Z.of_nat i)) 1 /\ (i = 0%nat -> k = 0))
      body (Z.to_nat s) 0%nat (0, m_signed m 1, D)) as ([[k dt] du] & E1 & I1).
  - rewrite One. change (Z.of_nat 0) with 0. rewrite Z.sub_0_r. change (2 ^ 0) with 1.
    rewrite Z.pow_0_r, Z.pow_1_r. repeat split; auto; try lia; try apply eqm_refl; unfold residue in *; try lia.
    rewrite Z.mul_1_r. replace s with (s - 1 + 1) by lia. rewrite pow2_split by lia.
    rewrite Z.mul_comm, Z.pow_mul_r by lia.
    eapply eqm_trans; [apply eqm_pow, Ea1|]. rewrite Z.pow_1_l by lia. apply eqm_refl.
  - intros i [[k dt] du] Hi (Hk & Ke & Rdt & Rdu & Edt & Edu & Eone & Hk0).
    set (j := s - 1 - Z.of_nat i). assert (Hj : 0 <= j < s) by (unfold j; zl).
    assert (Pj : 0 < 2 ^ j) by (apply Z.pow_pos_nonneg; zl).
    assert (Pj2 : 2 ^ j <= 2 ^ 30) by (apply Z.pow_le_mono_r; zl).
    unfold body. fold j. rewrite m_mul_ok by auto. cbn [obind].
    rewrite Z.shiftl_mul_pow2, Z.mul_1_l by zl.
    rewrite m_pow_ok by (auto; try (apply mod_residue; auto); zl). cbn [obind].
    set (z := ((a * dt) mod m) ^ 2 ^ j mod m).
    assert (Rz : residue m z) by (apply mod_residue; auto).
    assert (Ez : eqm m z ((a * dt) ^ 2 ^ j)).
    { eapply eqm_trans; [apply eqm_mod|]. apply eqm_pow, eqm_mod. }
    assert (Zpm : eqm m ((a * dt) ^ 2 ^ j) 1 \/ eqm m ((a * dt) ^ 2 ^ j) (-1)).
    { apply sq_one; auto. rewrite <- Z.pow_add_r by zl.
      replace (2 ^ j + 2 ^ j) with (2 ^ (s - Z.of_nat i)); auto.
      replace (s - Z.of_nat i) with (j + 1) by (unfold j; zl). rewrite pow2_split; zl. }
    assert (Pi : 0 < 2 ^ Z.of_nat i) by (apply Z.pow_pos_nonneg; zl).
    assert (ESi : 2 ^ Z.of_nat (S i) = 2 * 2 ^ Z.of_nat i).
    { rewrite Nat2Z.inj_succ, Z.pow_succ_r by zl. reflexivity. }
    assert (Edu2 : eqm m ((du * du) mod m) (D ^ 2 ^ Z.of_nat (S i))).
    { apply eqm_mod_r. rewrite ESi. replace (2 * 2 ^ Z.of_nat i) with (2 ^ Z.of_nat i + 2 ^ Z.of_nat i) by ring.
      rewrite Z.pow_add_r by zl. now apply eqm_mul. }
    destruct (m_eq z (m_signed m (-1))) eqn:Ezm.
    + apply is_m1 in Ezm; auto.
      assert (Em : eqm m ((a * dt) ^ 2 ^ j) (-1)).
      { eapply eqm_trans; [apply eqm_sym, Ez|auto]. }
      assert (I0 : i <> 0%nat).
      { intros ->. rewrite (Hk0 eq_refl) in Edt. apply (one_neq_m1 _ P Odd).
        eapply eqm_trans; [|apply Em]. apply eqm_sym.
        eapply eqm_trans; [apply eqm_pow, eqm_mul; [apply eqm_refl|apply Edt]|].
        rewrite Z.pow_0_r, Z.mul_1_r. unfold j. change (Z.of_nat 0) with 0. now rewrite Z.sub_0_r. }
      rewrite m_mul_ok by auto. cbn [obind]. rewrite m_mul_ok by auto. cbn [obind].
      eexists; split; [reflexivity|]. cbn beta iota.
      assert (LK : Z.lor k (Z.shiftl 1 (Z.of_nat i)) = k + 2 ^ Z.of_nat i).
      { rewrite Z.shiftl_mul_pow2, Z.mul_1_l by zl.
        pose proof (@lor_cat (Z.of_nat i) k 0 0 1 ltac:(zl) Hk ltac:(zl)) as LC.
        rewrite Z.mul_0_r, Z.add_0_r, Z.mul_1_r, Z.add_0_l, Z.lor_0_r in LC.
        change (Z.lor 0 1) with 1 in LC. rewrite Z.mul_1_r in LC. exact LC. }
      rewrite LK.
      split; [zl|]. split.
      { replace i with (S (pred i)) by zl. rewrite Nat2Z.inj_succ, Z.pow_succ_r by zl.
        rewrite Z.mul_comm. rewrite Z_mod_plus_full. auto. }
      split; [apply mod_residue; auto|]. split; [apply mod_residue; auto|].
      assert (Edt2 : eqm m ((dt * du) mod m) (D ^ (k + 2 ^ Z.of_nat i))).
      { apply eqm_mod_r. rewrite Z.pow_add_r by zl. now apply eqm_mul. }
      split; auto. split; auto. split; [|zl].
      replace (s - Z.of_nat (S i)) with j by (unfold j; zl).
      eapply eqm_trans; [apply eqm_pow, eqm_mul; [apply eqm_refl|apply eqm_mod]|].
      replace (a * (dt * du)) with ((a * dt) * du) by ring. rewrite Z.pow_mul_l.
      change 1 with (-1 * -1). apply eqm_mul; auto.
      eapply eqm_trans; [apply eqm_pow, Edu|]. rewrite <- Z.pow_mul_r by zl.
      rewrite <- Z.pow_add_r by zl. replace (Z.of_nat i + j) with (s - 1) by (unfold j; zl). auto.
    + cbn [obind]. rewrite m_mul_ok by auto. cbn [obind].
      eexists; split; [reflexivity|]. cbn beta iota.
      split; [zl|]. split; [auto|]. split; [auto|]. split; [apply mod_residue; auto|].
      split; [auto|]. split; [auto|]. split; [|zl].
      replace (s - Z.of_nat (S i)) with j by (unfold j; zl).
      destruct Zpm as [C|C]; auto. exfalso.
      assert (m_eq z (m_signed m (-1)) = true); [|congruence].
      apply is_m1; auto. eapply eqm_trans; [apply Ez|auto].
  - rewrite E1. cbn [obind].
    destruct I1 as (Hk & Ke & Rdt & Rdu & Edt & Edu & Eone & _).
    rewrite Nat.add_0_l in *. rewrite Z2Nat.id in * by zl.
    rewrite Z.sub_diag in Eone. change (2 ^ 0) with 1 in Eone. rewrite Z.pow_1_r in Eone.
    assert (2 ^ s <= 2 ^ 30) by (apply Z.pow_le_mono_r; zl).
    assert (0 <= t) by (unfold t; zl).
    rewrite m_pow_ok by (auto; clear - H0 H2; divlia). cbn [obind].
    rewrite m_pow_ok by (auto; clear - Hk H1; divlia). cbn [obind].
    rewrite m_mul_ok by (auto; apply mod_residue; auto).
    eexists; split; [reflexivity|]. split; [apply mod_residue; auto|]. apply Fin.
    eapply eqm_trans; [apply eqm_mul; apply eqm_mod|].
    eapply eqm_trans; [apply eqm_mul; (apply eqm_mul; apply eqm_mod)|].
    replace (x ^ ((t + 1) / 2) * D ^ (k / 2) * (x ^ ((t + 1) / 2) * D ^ (k / 2))) with
      ((x ^ ((t + 1) / 2) * x ^ ((t + 1) / 2)) * (D ^ (k / 2) * D ^ (k / 2))) by ring.
    rewrite <- !Z.pow_add_r by (try zl; apply Z.div_pos; zl).
    replace ((t + 1) / 2 + (t + 1) / 2) with (1 + t) by (unfold t; clear; divlia).
    replace (k / 2 + k / 2) with k by (clear - Ke; divlia).
    rewrite Z.pow_add_r, Z.pow_1_r by (unfold t; zl).
    replace (x * x ^ t * D ^ k) with (x * (x ^ t * D ^ k)) by ring.
    replace x with (x * 1) at 3 by ring. apply eqm_mul; [apply eqm_refl|].
    eapply eqm_trans; [|apply Eone]. apply eqm_mul; apply eqm_sym; auto.
Qed.

Lemma m_issq_ok : issq_ok (m_is_square m).
Proof. intros a R _. now apply m_is_square_pow. Qed.
Lemma d_issq_ok : issq_ok (d_is_square m).
Proof.
  intros a R N. unfold d_is_square. replace (a =? 0) with false by zl. now apply m_is_square_pow.
Qed.
End Sqrt.
