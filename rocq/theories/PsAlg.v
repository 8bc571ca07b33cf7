(** Formal power series modulo [p] and [x^n] as functions [nat -> Z]. *)
From Coq Require Import Setoid Morphisms Znumtheory.
From Verif Require Import Base BaseLemmas NumTheory NttModel NttSum.
Local Open Scope Z_scope.
Ltac Zify.zify_post_hook ::= idtac.

Definition pser := nat -> Z.
Definition ps_mul (a b : pser) : pser := fun k => zsum (S k) (fun i => a i * b (k - i)%nat).
Definition ps_add (a b : pser) : pser := fun k => a k + b k.
Definition ps_sub (a b : pser) : pser := fun k => a k - b k.
Definition ps_opp (a : pser) : pser := fun k => - a k.
Definition ps_c (c : Z) : pser := fun k => if (k =? 0)%nat then c else 0.
(** derivative *)
Definition ps_d (a : pser) : pser := fun k => Z.of_nat (S k) * a (S k).
(** multiplication by [x^m] *)
Definition ps_x (m : nat) (a : pser) : pser := fun k => if (k <? m)%nat then 0 else a (k - m)%nat.
Fixpoint ps_pow (a : pser) (n : nat) : pser :=
  match n with O => ps_c 1 | S n => ps_mul a (ps_pow a n) end.

Lemma zsum_tri F k : zsum (S k) (fun i => zsum (S i) (fun j => F j (i - j)%nat)) =
  zsum (S k) (fun j => zsum (S (k - j)) (fun i => F j i)).
Proof.
  induction k as [|k IH]; [reflexivity|]. cbn [zsum] in IH |- *. cbn [zsum]. rewrite IH. cbn [zsum].
  rewrite Nat.sub_diag.
  rewrite (zsum_ext k (fun j => zsum (S k - j) (fun i => F j i) + F j (S k - j)%nat)
    (fun j => (zsum (k - j) (fun i => F j i) + F j (k - j)%nat) + F j (S k - j)%nat)).
  - rewrite (zsum_add k _ (fun j => F j (S k - j)%nat)).
    replace (S k - k)%nat with 1%nat by lia. cbn [zsum]. rewrite !Nat.sub_diag. cbn [zsum]. ring.
  - intros j Hj. replace (S k - j)%nat with (S (k - j)) at 1 by lia. cbn [zsum]. ring.
Qed.

Lemma zsum_rev n f : zsum n f = zsum n (fun i => f (n - 1 - i)%nat).
Proof.
  induction n as [|n IH]; auto. rewrite (zsum_shift n (fun i => f (S n - 1 - i)%nat)). cbn [zsum].
  rewrite IH. replace (S n - 1 - 0)%nat with n by lia. rewrite Z.add_comm. f_equal. apply zsum_ext. intros i Hi. f_equal. lia.
Qed.

Lemma ps_mul_comm_e a b k : ps_mul a b k = ps_mul b a k.
Proof.
  unfold ps_mul. rewrite zsum_rev. apply zsum_ext. intros i Hi.
  replace (S k - 1 - i)%nat with (k - i)%nat by lia. replace (k - (k - i))%nat with i by lia. ring.
Qed.
Lemma ps_mul_assoc_e a b c k : ps_mul a (ps_mul b c) k = ps_mul (ps_mul a b) c k.
Proof.
  unfold ps_mul.
  rewrite (zsum_ext (S k) (fun i => zsum (S i) (fun j => a j * b (i - j)%nat) * c (k - i)%nat)
    (fun i => zsum (S i) (fun j => (fun j m => a j * b m * c (k - j - m)%nat) j (i - j)%nat))).
  - rewrite (zsum_tri (fun j m => a j * b m * c (k - j - m)%nat)). apply zsum_ext. intros j Hj. rewrite <- zsum_mul_l. apply zsum_ext. intros i Hi. ring.
  - intros i Hi. rewrite <- zsum_mul. apply zsum_ext. intros j Hj. replace (k - j - (i - j))%nat with (k - i)%nat by lia. ring.
Qed.
Lemma ps_mul_c_e c a k : ps_mul (ps_c c) a k = c * a k.
Proof.
  unfold ps_mul. rewrite zsum_shift. rewrite (zsum_ext k _ (fun _ => 0)), zsum_0.
  - unfold ps_c. cbn [Nat.eqb]. rewrite Nat.sub_0_r. ring.
  - intros i Hi. unfold ps_c. cbn [Nat.eqb]. ring.
Qed.
Lemma ps_d_mul_e a b k : ps_d (ps_mul a b) k = ps_mul (ps_d a) b k + ps_mul a (ps_d b) k.
Proof.
  unfold ps_d, ps_mul. rewrite <- zsum_mul_l.
  rewrite (zsum_ext (S (S k)) _ (fun i => Z.of_nat i * a i * b (S k - i)%nat + a i * (Z.of_nat (S k - i) * b (S k - i)%nat))).
  2:{ intros i Hi. rewrite Nat2Z.inj_sub by lia. ring. }
  rewrite zsum_add. f_equal.
  - rewrite zsum_shift. replace (Z.of_nat 0 * a 0%nat * b (S k - 0)%nat) with 0 by (cbn; ring). rewrite Z.add_0_l. apply zsum_ext.
    intros i Hi. replace (S k - S i)%nat with (k - i)%nat by lia. ring.
  - set (F := fun i => a i * (Z.of_nat (S k - i) * b (S k - i)%nat)). change (zsum (S (S k)) F) with (zsum (S k) F + F (S k)).
    assert (F (S k) = 0) as ->. { unfold F. rewrite Nat.sub_diag. cbn [Z.of_nat]. ring. }
    rewrite Z.add_0_r. apply zsum_ext. intros i Hi. unfold F. replace (S k - i)%nat with (S (k - i)) by lia. ring.
Qed.
Lemma ps_x_mul_e m a b k : ps_mul (ps_x m a) b k = ps_x m (ps_mul a b) k.
Proof.
  unfold ps_mul, ps_x. destruct (Nat.ltb_spec k m) as [H|H].
  - rewrite (zsum_ext (S k) _ (fun _ => 0)), zsum_0; auto. intros i Hi. destruct (Nat.ltb_spec i m); [ring|lia].
  - replace (S k) with (m + S (k - m))%nat by lia. rewrite zsum_split.
    rewrite (zsum_ext m _ (fun _ => 0)), zsum_0.
    + rewrite Z.add_0_l. apply zsum_ext. intros i Hi. destruct (Nat.ltb_spec (m + i) m); [lia|].
      f_equal; f_equal; lia.
    + intros i Hi. destruct (Nat.ltb_spec i m); [ring|lia].
Qed.

Section Ps.
Variable p : Z.
Local Notation "a == b" := (eqm p a b) (at level 70).
Definition eqs (n : nat) (a b : pser) : Prop := forall k, (k < n)%nat -> a k == b k.

Lemma eqs_le n m a b : (m <= n)%nat -> eqs n a b -> eqs m a b.
Proof. intros H E k Hk. apply E. lia. Qed.

Section N.
Variable n : nat.
Global Instance eqs_equiv : Equivalence (eqs n).
Proof.
  split.
  - intros a k _. reflexivity.
  - intros a b E k Hk. symmetry. now apply E.
  - intros a b c E F k Hk. transitivity (b k); auto.
Qed.
Global Instance ps_mul_m : Proper (eqs n ==> eqs n ==> eqs n) ps_mul.
Proof. intros a a' E b b' F k Hk. unfold ps_mul. apply zsum_eqm. intros i Hi. rewrite (E i), (F (k - i)%nat) by lia. reflexivity. Qed.
Global Instance ps_add_m : Proper (eqs n ==> eqs n ==> eqs n) ps_add.
Proof. intros a a' E b b' F k Hk. unfold ps_add. rewrite (E k Hk), (F k Hk). reflexivity. Qed.
Global Instance ps_sub_m : Proper (eqs n ==> eqs n ==> eqs n) ps_sub.
Proof. intros a a' E b b' F k Hk. unfold ps_sub. rewrite (E k Hk), (F k Hk). reflexivity. Qed.
Global Instance ps_opp_m : Proper (eqs n ==> eqs n) ps_opp.
Proof. intros a a' E k Hk. unfold ps_opp. rewrite (E k Hk). reflexivity. Qed.
Global Instance ps_pow_m : Proper (eqs n ==> eq ==> eqs n) ps_pow.
Proof. intros a a' E m m' <-. induction m; cbn [ps_pow]; [reflexivity|]. now rewrite IHm, E. Qed.

Lemma ps_ring : ring_theory (ps_c 0) (ps_c 1) ps_add ps_mul ps_sub ps_opp (eqs n).
Proof.
  split.
  - intros a k Hk. apply eq_eqm. unfold ps_add, ps_c. destruct (k =? 0)%nat; ring.
  - intros a b k Hk. apply eq_eqm. unfold ps_add. ring.
  - intros a b c k Hk. apply eq_eqm. unfold ps_add. ring.
  - intros a k Hk. apply eq_eqm. rewrite ps_mul_c_e. ring.
  - intros a b k Hk. apply eq_eqm. apply ps_mul_comm_e.
  - intros a b c k Hk. apply eq_eqm. apply ps_mul_assoc_e.
  - intros a b c k Hk. apply eq_eqm. unfold ps_add, ps_mul. rewrite <- zsum_add. apply zsum_ext. intros; ring.
  - intros a b k Hk. apply eq_eqm. unfold ps_sub, ps_add, ps_opp. ring.
  - intros a k Hk. apply eq_eqm. unfold ps_add, ps_opp, ps_c. destruct (k =? 0)%nat; ring.
Qed.
Lemma ps_ring_ext : ring_eq_ext ps_add ps_mul ps_opp (eqs n).
Proof. split; [apply ps_add_m|apply ps_mul_m|apply ps_opp_m]. Qed.
End N.

Definition inj_c : Z -> pser := ps_c.

Lemma eqs_d n a b : eqs (S n) a b -> eqs n (ps_d a) (ps_d b).
Proof. intros E k Hk. unfold ps_d. rewrite (E (S k)) by lia. reflexivity. Qed.
Lemma ps_d_mul n a b : eqs n (ps_d (ps_mul a b)) (ps_add (ps_mul (ps_d a) b) (ps_mul a (ps_d b))).
Proof. intros k _. apply eq_eqm. apply ps_d_mul_e. Qed.
Lemma ps_d_add n a b : eqs n (ps_d (ps_add a b)) (ps_add (ps_d a) (ps_d b)).
Proof. intros k _. apply eq_eqm. unfold ps_d, ps_add. ring. Qed.
Lemma ps_d_sub n a b : eqs n (ps_d (ps_sub a b)) (ps_sub (ps_d a) (ps_d b)).
Proof. intros k _. apply eq_eqm. unfold ps_d, ps_sub. ring. Qed.
Lemma ps_d_c n c : eqs n (ps_d (ps_c c)) (ps_c 0).
Proof. intros k _. apply eq_eqm. unfold ps_d, ps_c. cbn [Nat.eqb]. destruct (k =? 0)%nat; ring. Qed.

(** Series that vanish below [x^m] *)
Definition van (m : nat) (a : pser) : Prop := forall k, (k < m)%nat -> a k == 0.
Lemma van_mul m n a b : van m a -> van n b -> van (m + n) (ps_mul a b).
Proof.
  intros A B k Hk. unfold ps_mul. transitivity (zsum (S k) (fun _ => 0)); [|rewrite zsum_0; reflexivity].
  apply zsum_eqm. intros i Hi. destruct (Nat.lt_ge_cases i m) as [C|C].
  - rewrite (A i C). reflexivity.
  - rewrite (B (k - i)%nat ltac:(lia)), Z.mul_0_r. reflexivity.
Qed.
Lemma van_eqs m a b : eqs m a b <-> van m (ps_sub a b).
Proof.
  split; intros E k Hk; specialize (E k Hk); unfold ps_sub in *.
  - rewrite E. apply eq_eqm. ring.
  - transitivity ((a k - b k) + b k); [apply eq_eqm; ring|]. rewrite E. apply eq_eqm. ring.
Qed.
Lemma van_0 m a : van m a <-> eqs m a (ps_c 0).
Proof.
  split; intros E k Hk; specialize (E k Hk); unfold ps_c in *; destruct (k =? 0)%nat; auto.
Qed.

Hypothesis P : prime p.

(** Cancellation of a unit *)
Lemma ps_cancel n f a b : ~ (p | f 0%nat) -> eqs n (ps_mul f a) (ps_mul f b) -> eqs n a b.
Proof.
  intros U E. assert (K : forall N k, (k < N)%nat -> (k < n)%nat -> a k == b k).
  { induction N as [|N IH]; intros k HN Hk; [lia|]. specialize (E k Hk).
    unfold ps_mul in E. rewrite !(zsum_shift k), !Nat.sub_0_r in E.
    assert (R : zsum k (fun i => f (S i) * a (k - S i)%nat) == zsum k (fun i => f (S i) * b (k - S i)%nat)).
    { apply zsum_eqm. intros i Hi. rewrite (IH (k - S i)%nat ltac:(lia) ltac:(lia)). reflexivity. }
    apply (eqm_cancel p P (f 0%nat) _ _ U).
    transitivity ((f 0%nat * a k + zsum k (fun i => f (S i) * a (k - S i)%nat)) - zsum k (fun i => f (S i) * a (k - S i)%nat));
      [apply eq_eqm; ring|]. rewrite E, R. apply eq_eqm. ring. }
  intros k Hk. apply (K (S k)); lia.
Qed.

Lemma small_unit k : (0 < k)%nat -> Z.of_nat k < p -> ~ (p | Z.of_nat k).
Proof. intros H1 H2. apply (not_div_small p); lia. Qed.

(** [a' = b'] and the same constant term *)
Lemma ps_d_inj n a b : Z.of_nat n < p -> a 0%nat == b 0%nat -> eqs n (ps_d a) (ps_d b) -> eqs (S n) a b.
Proof.
  intros Hn H0 E k Hk. destruct k as [|k]; auto. specialize (E k ltac:(lia)). unfold ps_d in E.
  apply (eqm_cancel p P (Z.of_nat (S k))); auto. apply small_unit; lia.
Qed.

(** Linear differential equations [f F' = h F] have one solution for each constant term. *)
Lemma ps_ode n f h F G : Z.of_nat n < p -> ~ (p | f 0%nat) -> F 0%nat == G 0%nat ->
  eqs n (ps_mul f (ps_d F)) (ps_mul h F) -> eqs n (ps_mul f (ps_d G)) (ps_mul h G) -> eqs (S n) F G.
Proof.
  intros Hn U H0 EF EG. assert (K : forall N, (N <= n)%nat -> eqs (S N) F G).
  { induction N as [|N IH]; intros HN.
    - intros k Hk. assert (k = 0)%nat as -> by lia. exact H0.
    - specialize (IH ltac:(lia)). apply ps_d_inj; [lia|auto|]. apply (ps_cancel (S N) f); auto.
      rewrite (eqs_le n (S N) _ _ HN EF), (eqs_le n (S N) _ _ HN EG). rewrite IH. reflexivity. }
  apply K. lia.
Qed.
End Ps.
