(** Sums modulo [p], powers with natural exponents, bit reversal. *)
From Coq Require Import Setoid Morphisms Znumtheory.
From Verif Require Import Base BaseLemmas NumTheory NttModel.
Local Open Scope Z_scope.
Ltac Zify.zify_post_hook ::= idtac.

Definition pw (x : Z) (k : nat) : Z := x ^ Z.of_nat k.
Lemma pw_0 x : pw x 0 = 1. Proof. reflexivity. Qed.
Lemma pw_1 x : pw x 1 = x. Proof. apply Z.pow_1_r. Qed.
Lemma pw_S x k : pw x (S k) = x * pw x k.
Proof. unfold pw. rewrite Nat2Z.inj_succ, Z.pow_succ_r; auto. lia. Qed.
Lemma pw_add x i j : pw x (i + j) = pw x i * pw x j.
Proof. unfold pw. rewrite Nat2Z.inj_add, Z.pow_add_r; auto; lia. Qed.
Lemma pw_mul x i j : pw x (i * j) = pw (pw x i) j.
Proof. unfold pw. rewrite Nat2Z.inj_mul, Z.pow_mul_r; auto; lia. Qed.
Lemma pw_mul_l x y k : pw (x * y) k = pw x k * pw y k.
Proof. unfold pw. apply Z.pow_mul_l. Qed.
Lemma pw_one k : pw 1 k = 1.
Proof. unfold pw. apply Z.pow_1_l. lia. Qed.

(** ** Plain sums *)
Lemma zsum_ext n f g : (forall i, (i < n)%nat -> f i = g i) -> zsum n f = zsum n g.
Proof. induction n; intros H; simpl; auto. rewrite IHn, H; auto. Qed.
Lemma zsum_add n f g : zsum n (fun i => f i + g i) = zsum n f + zsum n g.
Proof. induction n; simpl; auto. rewrite IHn. ring. Qed.
Lemma zsum_mul n f c : zsum n (fun i => f i * c) = zsum n f * c.
Proof. induction n; simpl; auto. rewrite IHn. ring. Qed.
Lemma zsum_mul_l n f c : zsum n (fun i => c * f i) = c * zsum n f.
Proof. induction n; simpl; [ring|]. rewrite IHn. ring. Qed.
Lemma zsum_0 n : zsum n (fun _ => 0) = 0.
Proof. induction n; simpl; auto. rewrite IHn. ring. Qed.
Lemma zsum_const n c : zsum n (fun _ => c) = Z.of_nat n * c.
Proof. induction n; [simpl; ring|]. cbn [zsum]. rewrite IHn, Nat2Z.inj_succ. ring. Qed.
Lemma zsum_split a b f : zsum (a + b) f = zsum a f + zsum b (fun i => f (a + i)%nat).
Proof.
  induction b; [rewrite Nat.add_0_r; simpl; ring|].
  rewrite Nat.add_succ_r. cbn [zsum]. rewrite IHb. ring.
Qed.
Lemma zsum_shift n f : zsum (S n) f = f 0%nat + zsum n (fun i => f (S i)).
Proof. change (S n) with (1 + n)%nat. rewrite zsum_split. simpl. ring. Qed.
Lemma zsum_even_odd n f : zsum (2 * n) f = zsum n (fun i => f (2 * i)%nat) + zsum n (fun i => f (2 * i + 1)%nat).
Proof.
  induction n; auto. replace (2 * S n)%nat with (S (S (2 * n))) by lia. cbn [zsum]. rewrite IHn.
  replace (2 * n + 1)%nat with (S (2 * n)) by lia. ring.
Qed.
Lemma zsum_swap n m f : zsum n (fun i => zsum m (fun j => f i j)) = zsum m (fun j => zsum n (fun i => f i j)).
Proof.
  induction n; simpl; [now rewrite zsum_0|]. rewrite IHn. rewrite <- zsum_add. reflexivity.
Qed.
Lemma zsum_single n f k : (k < n)%nat -> (forall i, (i < n)%nat -> i <> k -> f i = 0) -> zsum n f = f k.
Proof.
  induction n as [|n IH]; intros Hk H; [lia|]. cbn [zsum]. destruct (Nat.eq_dec k n) as [->|].
  - rewrite (zsum_ext n f (fun _ => 0)), zsum_0; [ring|]. intros i Hi. apply H; lia.
  - rewrite IH by (try lia; intros; apply H; lia). rewrite (H n) by lia. ring.
Qed.
(** Padding with zero terms. *)
Lemma zsum_pad n m f : (n <= m)%nat -> (forall i, (n <= i < m)%nat -> f i = 0) -> zsum m f = zsum n f.
Proof.
  intros H Z0. replace m with (n + (m - n))%nat by lia. rewrite zsum_split.
  rewrite (zsum_ext (m - n) _ (fun _ => 0)), zsum_0; [ring|]. intros i Hi. apply Z0. lia.
Qed.

(** ** Congruence *)
Section Eqm.
Variable p : Z.
Global Instance eqm_equiv : Equivalence (eqm p).
Proof.
  split; [intros x; apply eqm_refl|intros x y; apply eqm_sym|intros x y z; apply eqm_trans].
Qed.
Global Instance eqm_add_m : Proper (eqm p ==> eqm p ==> eqm p) Z.add.
Proof. intros a b H c d K. now apply eqm_add. Qed.
Global Instance eqm_sub_m : Proper (eqm p ==> eqm p ==> eqm p) Z.sub.
Proof. intros a b H c d K. now apply eqm_sub. Qed.
Global Instance eqm_mul_m : Proper (eqm p ==> eqm p ==> eqm p) Z.mul.
Proof. intros a b H c d K. now apply eqm_mul. Qed.
Global Instance eqm_opp_m : Proper (eqm p ==> eqm p) Z.opp.
Proof. intros a b H. now apply eqm_opp. Qed.
Global Instance eqm_pw_m : Proper (eqm p ==> eq ==> eqm p) pw.
Proof. intros a b H c d <-. now apply eqm_pow. Qed.

Lemma zsum_eqm n f g : (forall i, (i < n)%nat -> eqm p (f i) (g i)) -> eqm p (zsum n f) (zsum n g).
Proof. induction n; intros H; simpl; [reflexivity|]. rewrite IHn, H; auto. reflexivity. Qed.
Lemma eq_eqm a b : a = b -> eqm p a b. Proof. intros ->. reflexivity. Qed.
End Eqm.

(** ** Bit reversal *)
Lemma brev_lt t : forall c, (brev t c < 2 ^ t)%nat.
Proof.
  induction t as [|t IH]; intros c; cbn [brev]; [cbn; lia|]. specialize (IH (c / 2)%nat). rewrite Nat.pow_succ_r'.
  pose proof (Nat.mod_upper_bound c 2 ltac:(lia)). nia.
Qed.
(** The other recursion: the most significant digit moves to the front. *)
Lemma brev_high t : forall c b, (b <= 1)%nat -> (c < 2 ^ t)%nat -> brev (S t) (c + 2 ^ t * b) = (2 * brev t c + b)%nat.
Proof.
  induction t as [|t IH]; intros c b Hb Hc.
  - cbn in Hc. assert (c = 0)%nat as -> by lia. cbn [brev]. assert (b = 0 \/ b = 1)%nat as [->| ->] by lia; reflexivity.
  - rewrite Nat.pow_succ_r' in *.
    assert (D : ((c + 2 * 2 ^ t * b) / 2 = c / 2 + 2 ^ t * b)%nat).
    { replace (c + 2 * 2 ^ t * b)%nat with (c + (2 ^ t * b) * 2)%nat by lia. now rewrite Nat.div_add by lia. }
    assert (Md : ((c + 2 * 2 ^ t * b) mod 2 = c mod 2)%nat).
    { replace (c + 2 * 2 ^ t * b)%nat with (c + (2 ^ t * b) * 2)%nat by lia. now rewrite Nat.mod_add by lia. }
    assert (Hc2 : (c / 2 < 2 ^ t)%nat) by (apply Nat.div_lt_upper_bound; lia).
    specialize (IH (c / 2)%nat b Hb Hc2). remember (S t) as t1. cbn [brev]. rewrite D, Md, IH. subst t1.
    cbn [brev]. rewrite Nat.pow_succ_r'. ring.
Qed.
Lemma brev_low t c b : (b <= 1)%nat -> brev (S t) (2 * c + b) = (brev t c + 2 ^ t * b)%nat.
Proof.
  intros Hb. cbn [brev]. rewrite Nat.mul_comm. rewrite Nat.div_add_l, (Nat.div_small b 2) by lia.
  rewrite Nat.add_0_r. rewrite (Nat.add_comm (c * 2) b), Nat.mod_add, Nat.mod_small by lia. reflexivity.
Qed.
Lemma brev_inv t : forall c, (c < 2 ^ t)%nat -> brev t (brev t c) = c.
Proof.
  induction t as [|t IH]; intros c Hc.
  - cbn in Hc. cbn. lia.
  - rewrite Nat.pow_succ_r' in Hc.
    assert (Hb : (c mod 2 <= 1)%nat) by (pose proof (Nat.mod_upper_bound c 2 ltac:(lia)); lia).
    assert (Hc2 : (c / 2 < 2 ^ t)%nat) by (apply Nat.div_lt_upper_bound; lia).
    change (brev (S t) c) with (brev t (c / 2) + 2 ^ t * (c mod 2))%nat.
    rewrite brev_high by (auto; apply brev_lt). rewrite IH by auto.
    pose proof (Nat.div_mod c 2). lia.
Qed.
Lemma brev_inj t a b : (a < 2 ^ t)%nat -> (b < 2 ^ t)%nat -> brev t a = brev t b -> a = b.
Proof. intros Ha Hb E. rewrite <- (brev_inv t a), <- (brev_inv t b), E; auto. Qed.
Lemma zsum_brev t : forall f, zsum (2 ^ t) (fun j => f (brev t j)) = zsum (2 ^ t) f.
Proof.
  induction t as [|t IH]; intros f; [reflexivity|]. rewrite Nat.pow_succ_r'. rewrite zsum_even_odd.
  replace (2 * 2 ^ t)%nat with (2 ^ t + 2 ^ t)%nat by lia. rewrite zsum_split. f_equal.
  - rewrite <- (IH f). apply zsum_ext. intros i Hi. replace (2 * i)%nat with (2 * i + 0)%nat by lia.
    rewrite brev_low by lia. f_equal. lia.
  - rewrite <- (IH (fun x => f (2 ^ t + x)%nat)). apply zsum_ext. intros i Hi. rewrite brev_low by lia. f_equal. lia.
Qed.
