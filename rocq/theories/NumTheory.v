(** Elementary number theory modulo a prime: Fermat, Lagrange's bound on roots,
    Euler's criterion, the second supplement for p = 5 mod 8. *)
From Coq Require Import Znumtheory Permutation.
From Verif Require Import Base BaseLemmas.
Local Open Scope Z_scope.
Ltac Zify.zify_post_hook ::= Z.div_mod_to_equations.

Definition eqm (p a b : Z) : Prop := (p | a - b).

Lemma eqm_refl p a : eqm p a a.
Proof. unfold eqm. rewrite Z.sub_diag. apply Z.divide_0_r. Qed.
Lemma eqm_sym p a b : eqm p a b -> eqm p b a.
Proof. unfold eqm. intros [k H]. exists (- k). lia. Qed.
Lemma eqm_trans p a b c : eqm p a b -> eqm p b c -> eqm p a c.
Proof. unfold eqm. intros [k H] [l K]. exists (k + l). lia. Qed.
Lemma eqm_add p a b c d : eqm p a b -> eqm p c d -> eqm p (a + c) (b + d).
Proof. unfold eqm. intros [k H] [l K]. exists (k + l). lia. Qed.
Lemma eqm_sub p a b c d : eqm p a b -> eqm p c d -> eqm p (a - c) (b - d).
Proof. unfold eqm. intros [k H] [l K]. exists (k - l). lia. Qed.
Lemma eqm_opp p a b : eqm p a b -> eqm p (- a) (- b).
Proof. unfold eqm. intros [k H]. exists (- k). lia. Qed.
Lemma eqm_mul p a b c d : eqm p a b -> eqm p c d -> eqm p (a * c) (b * d).
Proof.
  unfold eqm. intros [k H] [l K]. exists (k * c + b * l).
  replace a with (b + k * p) by lia. replace c with (d + l * p) at 1 by lia.
  replace c with (d + l * p) by lia. ring.
Qed.
Lemma eqm_pow p a b n : eqm p a b -> eqm p (a ^ n) (b ^ n).
Proof.
  intros H. destruct (Z.lt_ge_cases n 0) as [C|C].
  - rewrite !Z.pow_neg_r by auto. apply eqm_refl.
  - pattern n. apply natlike_ind; auto.
    + rewrite !Z.pow_0_r. apply eqm_refl.
    + intros x Hx IH. rewrite !Z.pow_succ_r by auto. now apply eqm_mul.
Qed.
Lemma eqm_mod p a : eqm p (a mod p) a.
Proof.
  unfold eqm. destruct (Z.eq_dec p 0) as [->|]; [rewrite Zmod_0_r, Z.sub_diag; apply Z.divide_0_r|].
  exists (- (a / p)). pose proof (Z.div_mod a p). lia.
Qed.
Lemma eqm_mod_r p a b : eqm p a b -> eqm p (a mod p) b.
Proof. intros; eapply eqm_trans; [apply eqm_mod|auto]. Qed.
Lemma eqm_small p a b : 0 <= a < p -> 0 <= b < p -> eqm p a b -> a = b.
Proof. unfold eqm. intros Ha Hb [k H]. assert (k = 0) by nia. lia. Qed.
Lemma eqm_mod_eq p a b : 0 < p -> (eqm p a b <-> a mod p = b mod p).
Proof.
  intros Hp. split; intros H.
  - apply (eqm_small p); try (apply Z.mod_pos_bound; lia).
    eapply eqm_trans; [apply eqm_mod|]. eapply eqm_trans; [apply H|]. apply eqm_sym, eqm_mod.
  - eapply eqm_trans; [apply eqm_sym, eqm_mod|]. rewrite H. apply eqm_mod.
Qed.
Lemma eqm_0 p a : eqm p a 0 <-> (p | a).
Proof. unfold eqm. now rewrite Z.sub_0_r. Qed.

Section Prime.
Variable p : Z.
Hypothesis P : prime p.

Lemma p_ge2 : 2 <= p. Proof. apply prime_ge_2; auto. Qed.

Lemma eqm_cancel c a b : ~ (p | c) -> eqm p (c * a) (c * b) -> eqm p a b.
Proof.
  unfold eqm. intros Hc H. rewrite <- Z.mul_sub_distr_l in H.
  apply prime_mult in H; auto. tauto.
Qed.

Lemma not_div_small a : 0 < a < p -> ~ (p | a).
Proof. intros H K. apply Z.divide_pos_le in K; lia. Qed.
Lemma not_div_mul a b : ~ (p | a) -> ~ (p | b) -> ~ (p | a * b).
Proof. intros H K D. apply prime_mult in D; auto. tauto. Qed.
Lemma not_div_pow a n : 0 <= n -> ~ (p | a) -> ~ (p | a ^ n).
Proof.
  intros Hn Ha. pattern n. apply natlike_ind; auto.
  - rewrite Z.pow_0_r. pose proof p_ge2. apply not_div_small; lia.
  - intros x Hx IH. rewrite Z.pow_succ_r by auto. now apply not_div_mul.
Qed.

(** Products over lists. *)
Definition prod (l : list Z) : Z := fold_right Z.mul 1 l.
Lemma prod_perm l l' : Permutation l l' -> prod l = prod l'.
Proof. unfold prod. induction 1; cbn [fold_right]; lia. Qed.
Lemma prod_not_div l : Forall (fun x => ~ (p | x)) l -> ~ (p | prod l).
Proof.
  induction 1; cbn [prod fold_right].
  - pose proof p_ge2. apply not_div_small; lia.
  - now apply not_div_mul.
Qed.

(** The integers 1..n. *)
Definition upto (n : Z) : list Z := map Z.of_nat (seq 1 (Z.to_nat n)).
Lemma upto_In n x : In x (upto n) <-> 1 <= x <= n.
Proof.
  unfold upto. rewrite in_map_iff. split.
  - intros (k & <- & H). apply in_seq in H. lia.
  - intros H. exists (Z.to_nat x). split; [lia|]. apply in_seq. lia.
Qed.
Lemma upto_NoDup n : NoDup (upto n).
Proof.
  unfold upto. apply FinFun.Injective_map_NoDup; [intros a b; lia|apply seq_NoDup].
Qed.
Lemma upto_length n : length (upto n) = Z.to_nat n.
Proof. unfold upto. now rewrite map_length, seq_length. Qed.

Lemma map_NoDup (f : Z -> Z) l : NoDup l -> (forall x y, In x l -> In y l -> f x = f y -> x = y) -> NoDup (map f l).
Proof.
  induction 1 as [|a l Ha ND IH]; intros Hf; cbn [map]; constructor.
  - intros H. apply in_map_iff in H as (x & E & Hx). apply Hf in E; simpl; auto. now subst.
  - apply IH. intros x y Hx Hy. apply Hf; simpl; auto.
Qed.

Lemma map_perm (f : Z -> Z) n :
  (forall x, 1 <= x <= n -> 1 <= f x <= n) ->
  (forall x y, 1 <= x <= n -> 1 <= y <= n -> f x = f y -> x = y) ->
  Permutation (map f (upto n)) (upto n).
Proof.
  intros Hr Hi. apply NoDup_Permutation_bis.
  - apply map_NoDup; [apply upto_NoDup|]. intros x y Hx Hy. rewrite upto_In in *. auto.
  - now rewrite map_length.
  - intros y Hy. apply in_map_iff in Hy as (x & <- & Hx). rewrite upto_In in *. auto.
Qed.

Lemma prod_scale a l : eqm p (prod (map (fun i => (a * i) mod p) l)) (a ^ Z.of_nat (length l) * prod l).
Proof.
  induction l as [|x l IH]; [apply eqm_refl|].
  cbn [map prod fold_right length]. fold (prod l) (prod (map (fun i => (a * i) mod p) l)).
  eapply eqm_trans; [apply eqm_mul; [apply eqm_mod|apply IH]|].
  rewrite Nat2Z.inj_succ, Z.pow_succ_r by lia.
  replace (a * x * (a ^ Z.of_nat (length l) * prod l)) with (a * a ^ Z.of_nat (length l) * (x * prod l)) by ring.
  apply eqm_refl.
Qed.

Theorem fermat a : ~ (p | a) -> eqm p (a ^ (p - 1)) 1.
Proof.
  intros Ha. pose proof p_ge2.
  assert (PM : Permutation (map (fun i => (a * i) mod p) (upto (p - 1))) (upto (p - 1))).
  { apply map_perm.
    - intros x Hx. assert (B : 0 <= (a * x) mod p < p) by (apply Z.mod_pos_bound; lia).
      assert ((a * x) mod p <> 0); [|lia].
      intros E. apply Z.mod_divide in E; [|lia]. apply prime_mult in E; auto.
      destruct E; [tauto|]. revert H0. apply not_div_small. lia.
    - intros x y Hx Hy E. apply (eqm_small p); try lia.
      apply (eqm_cancel a); auto. apply eqm_mod_eq; auto; lia. }
  apply prod_perm in PM. pose proof (prod_scale a (upto (p - 1))) as S. rewrite PM, upto_length in S.
  rewrite Z2Nat.id in S by lia.
  apply (eqm_cancel (prod (upto (p - 1)))).
  - apply prod_not_div. apply Forall_forall. intros x Hx. rewrite upto_In in Hx. apply not_div_small; lia.
  - rewrite Z.mul_1_r. apply eqm_sym. now rewrite Z.mul_comm.
Qed.

Lemma fermat_inv a : ~ (p | a) -> eqm p (a * a ^ (p - 2)) 1.
Proof.
  intros Ha. pose proof p_ge2. replace (a * a ^ (p - 2)) with (a ^ (p - 1)); [now apply fermat|].
  replace (p - 1) with (Z.succ (p - 2)) by lia. rewrite Z.pow_succ_r by lia. reflexivity.
Qed.

(** ** Lagrange's bound *)
Fixpoint horner (x acc : Z) (f : list Z) : Z :=
  match f with [] => acc | c :: f => horner x (acc * x + c) f end.
(** The quotient of synthetic division by [x - r]: the partial Horner values. *)
Fixpoint quo (r acc : Z) (f : list Z) : list Z :=
  match f with [] => [] | c :: f => acc :: quo r (acc * r + c) f end.

Lemma horner_quo x r f : forall P0 A B, P0 - A = (x - r) * B ->
  horner x P0 f - horner r A f = (x - r) * horner x B (quo r A f).
Proof.
  induction f as [|c f IH]; intros P0 A B H; cbn [horner quo]; auto.
  apply IH.
  replace (P0 * x + c - (A * r + c)) with ((P0 - A) * x + A * (x - r)) by ring.
  rewrite H. ring.
Qed.

Lemma quo_length r f : forall acc, length (quo r acc f) = length f.
Proof. induction f; simpl; auto. Qed.

Lemma roots_bound f : forall lead rs, ~ (p | lead) -> NoDup rs ->
  Forall (fun r => 0 <= r < p /\ (p | horner r lead f)) rs -> (length rs <= length f)%nat.
Proof.
  remember (length f) as n eqn:E. revert f E.
  induction n as [|n IH]; intros f E lead rs Hl ND F.
  - destruct f; [|discriminate]. destruct rs as [|r rs]; auto.
    inversion F as [|? ? [_ D] _]; subst. cbn [horner] in D. tauto.
  - destruct rs as [|r rs]; [simpl; lia|].
    inversion F as [|? ? [Hr Dr] F']; subst. inversion ND as [|? ? Nr ND']; subst.
    destruct f as [|c f]; [discriminate|]. injection E as E.
    cbn [length]. apply le_n_S.
    (* the quotient has leading coefficient [lead] *)
    apply (IH (quo r (lead * r + c) f)) with (lead := lead); auto; [now rewrite quo_length|].
    rewrite Forall_forall in *. intros s Hs. destruct (F' s Hs) as [Rs Ds]. split; auto.
    pose proof (@horner_quo s r (c :: f) lead lead 0 ltac:(ring)) as HQ.
    cbn [quo horner] in HQ, Dr, Ds. rewrite Z.mul_0_l, Z.add_0_l in HQ.
    assert (D : (p | (s - r) * horner s lead (quo r (lead * r + c) f))).
    { rewrite <- HQ. now apply Z.divide_sub_r. }
    apply prime_mult in D; auto. destruct D as [D|D]; auto.
    exfalso. apply Nr. assert (s = r); [|now subst]. apply (eqm_small p); auto.
Qed.

Lemma horner_repeat x n : forall acc, horner x acc (repeat 0 n) = acc * x ^ Z.of_nat n.
Proof.
  induction n as [|n IH]; intros acc; cbn [repeat horner].
  - rewrite Z.pow_0_r. lia.
  - rewrite IH, Nat2Z.inj_succ, Z.pow_succ_r by lia. ring.
Qed.
Lemma horner_app x f g : forall acc, horner x acc (f ++ g) = horner x (horner x acc f) g.
Proof. induction f; intros; simpl; auto. Qed.

(** At most [k] residues satisfy [x^k = 1]. *)
Lemma unit_roots_bound k rs : 0 < k -> NoDup rs ->
  Forall (fun r => 0 <= r < p /\ eqm p (r ^ k) 1) rs -> Z.of_nat (length rs) <= k.
Proof.
  intros Hk ND F. pose proof p_ge2.
  assert (L : (length rs <= length (repeat 0%Z (Z.to_nat (k - 1)) ++ [-1]%Z))%nat).
  { apply roots_bound with (lead := 1); auto; [apply not_div_small; lia|].
    revert F. apply Forall_impl. intros r [Hr D]. split; auto.
    rewrite horner_app, horner_repeat. cbn [horner].
    replace (1 * r ^ Z.of_nat (Z.to_nat (k - 1)) * r + -1) with (r ^ k - 1); auto.
    rewrite Z2Nat.id by lia. replace k with (Z.succ (k - 1)) at 1 by lia.
    rewrite Z.pow_succ_r by lia. ring. }
  rewrite app_length, repeat_length in L. simpl length in L. lia.
Qed.

(** ** Squares, for odd [p] *)
Lemma sq_one y : eqm p (y * y) 1 -> eqm p y 1 \/ eqm p y (-1).
Proof.
  intros H. assert (D : (p | (y - 1) * (y + 1))).
  { replace ((y - 1) * (y + 1)) with (y * y - 1) by ring. exact H. }
  apply prime_mult in D; [|exact P]. destruct D as [D|D]; [now left|right]. unfold eqm.
  now replace (y - -1) with (y + 1) by ring.
Qed.

Hypothesis Odd : p mod 2 = 1.
Let h := (p - 1) / 2.

Lemma half_eq : p = 2 * h + 1. Proof. unfold h. lia. Qed.
Lemma half_pos : 0 < h. Proof. pose proof p_ge2. unfold h. lia. Qed.

Lemma one_neq_m1 : ~ eqm p 1 (-1).
Proof. pose proof p_ge2. pose proof half_eq. pose proof half_pos. unfold eqm. replace (1 - -1) with 2 by lia. apply not_div_small. lia. Qed.

Lemma sq_pow y : ~ (p | y) -> eqm p ((y * y) ^ h) 1.
Proof.
  intros H. replace ((y * y) ^ h) with (y ^ (p - 1)); [now apply fermat|].
  pose proof half_eq. pose proof half_pos. replace (p - 1) with (h + h) by lia.
  rewrite Z.pow_add_r by lia. rewrite Z.pow_mul_l. reflexivity.
Qed.

Lemma pow_half a : ~ (p | a) -> eqm p (a ^ h) 1 \/ eqm p (a ^ h) (-1).
Proof.
  intros H. apply sq_one. rewrite <- Z.pow_mul_l. now apply sq_pow.
Qed.

Lemma sq_inj x y : 1 <= x <= h -> 1 <= y <= h -> eqm p (x * x) (y * y) -> x = y.
Proof.
  intros Hx Hy E. pose proof half_eq. 
  assert (D : (p | (x - y) * (x + y))).
  { replace ((x - y) * (x + y)) with (x * x - y * y) by ring. exact E. }
  apply prime_mult in D; auto. destruct D as [D|D].
  - apply (eqm_small p); auto; lia.
  - exfalso. revert D. apply not_div_small. lia.
Qed.

(** Euler's criterion. *)
Theorem euler_criterion a : ~ (p | a) -> (eqm p (a ^ h) 1 <-> exists y, eqm p (y * y) a).
Proof.
  intros Ha. pose proof p_ge2. pose proof half_eq. pose proof half_pos. split.
  - intros E. set (sq := map (fun x => (x * x) mod p) (upto h)).
    assert (NS : NoDup sq).
    { apply map_NoDup; [apply upto_NoDup|]. intros x y Hx Hy K. rewrite upto_In in *.
      apply sq_inj; auto. apply eqm_mod_eq; auto; lia. }
    assert (FS : Forall (fun r => 0 <= r < p /\ eqm p (r ^ h) 1) sq).
    { apply Forall_forall. intros r Hr. apply in_map_iff in Hr as (x & <- & Hx). rewrite upto_In in Hx.
      split; [apply Z.mod_pos_bound; lia|].
      eapply eqm_trans; [apply eqm_pow, eqm_mod|]. apply sq_pow. apply not_div_small. lia. }
    destruct (in_dec Z.eq_dec (a mod p) sq) as [I|N].
    + apply in_map_iff in I as (x & Ex & _). exists x. apply eqm_mod_eq; auto; lia.
    + exfalso.
      assert (Z.of_nat (length (a mod p :: sq)) <= h).
      { apply unit_roots_bound; auto.
        - constructor; auto.
        - constructor; auto. split; [apply Z.mod_pos_bound; lia|].
          eapply eqm_trans; [apply eqm_pow, eqm_mod|]. exact E. }
      cbn [length] in H2. unfold sq in H2. rewrite map_length, upto_length in H2. lia.
  - intros (y & E). eapply eqm_trans; [apply eqm_pow, eqm_sym, E|]. apply sq_pow.
    intros D. apply Ha. apply eqm_0. eapply eqm_trans; [apply eqm_sym, E|].
    apply eqm_0. now apply Z.divide_mul_l.
Qed.

(** A non-residue exists. *)
Theorem nonresidue_exists : exists d, 2 <= d < p /\ eqm p (d ^ h) (-1).
Proof.
  pose proof p_ge2. pose proof half_eq. pose proof half_pos.
  destruct (Exists_dec (fun d => d ^ h mod p <> 1) (upto (p - 1))) as [E|N].
  { intros d. destruct (Z.eq_dec (d ^ h mod p) 1); [right|left]; auto. }
  - apply Exists_exists in E as (d & Hd & E). rewrite upto_In in Hd.
    assert (D : ~ (p | d)) by (apply not_div_small; lia).
    assert (N1 : ~ eqm p (d ^ h) 1).
    { intros K. apply eqm_mod_eq in K; [|lia]. rewrite (Z.mod_small 1) in K by lia. tauto. }
    exists d. split.
    + assert (d <> 1); [|lia]. intros ->. rewrite Z.pow_1_l in N1 by lia. apply N1, eqm_refl.
    + destruct (pow_half d D); tauto.
  - exfalso. assert (Z.of_nat (length (upto (p - 1))) <= h).
    { apply unit_roots_bound; auto using upto_NoDup. apply Forall_forall. intros d Hd.
      assert (Hd' := Hd). rewrite upto_In in Hd'. split; [lia|].
      apply eqm_mod_eq; [lia|]. rewrite (Z.mod_small 1) by lia.
      destruct (Z.eq_dec (d ^ h mod p) 1); auto. exfalso. apply N. apply Exists_exists. eauto. }
    rewrite upto_length in H2. lia.
Qed.

(** Gauss's lemma for 2: with [c] the number of [1 <= i <= h] with [2i > h]. *)
Lemma prod_two l : 
  eqm p (prod (map (fun i => if 2 * i <=? h then 2 * i else p - 2 * i) l))
        ((-1) ^ Z.of_nat (length (filter (fun i => h <? 2 * i) l)) * (2 ^ Z.of_nat (length l) * prod l)).
Proof.
  induction l as [|x l IH]; [apply eqm_refl|].
  cbn [map prod fold_right length filter].
  fold (prod l) (prod (map (fun i => if 2 * i <=? h then 2 * i else p - 2 * i) l)).
  rewrite Nat2Z.inj_succ, Z.pow_succ_r by lia.
  set (m := length (filter (fun i => h <? 2 * i) l)) in *.
  set (Q := prod l) in *. set (k := 2 ^ Z.of_nat (length l)) in *.
  destruct (2 * x <=? h) eqn:E.
  - replace (h <? 2 * x) with false by lia. fold m.
    replace ((-1) ^ Z.of_nat m * (2 * k * (x * Q))) with ((2 * x) * ((-1) ^ Z.of_nat m * (k * Q))) by ring.
    apply eqm_mul; [apply eqm_refl|auto].
  - replace (h <? 2 * x) with true by lia. cbn [length]. fold m.
    rewrite Nat2Z.inj_succ, Z.pow_succ_r by lia.
    replace (-1 * (-1) ^ Z.of_nat m * (2 * k * (x * Q))) with ((- (2 * x)) * ((-1) ^ Z.of_nat m * (k * Q))) by ring.
    apply eqm_mul; [|auto]. unfold eqm. exists 1. ring.
Qed.

Lemma gauss_two c : Z.of_nat (length (filter (fun i => h <? 2 * i) (upto h))) = c ->
  eqm p (2 ^ h) ((-1) ^ c).
Proof.
  intros Hc. pose proof p_ge2. pose proof half_eq. pose proof half_pos.
  assert (PM : Permutation (map (fun i => if 2 * i <=? h then 2 * i else p - 2 * i) (upto h)) (upto h)).
  { apply map_perm.
    - intros x Hx. destruct (2 * x <=? h) eqn:E; lia.
    - intros x y Hx Hy. destruct (2 * x <=? h) eqn:E1, (2 * y <=? h) eqn:E2; lia. }
  apply prod_perm in PM. pose proof (prod_two (upto h)) as S. rewrite PM, upto_length, Hc in S.
  rewrite Z2Nat.id in S by lia.
  assert (S2 : eqm p 1 ((-1) ^ c * 2 ^ h)).
  { apply (eqm_cancel (prod (upto h))).
    - apply prod_not_div. apply Forall_forall. intros x Hx. rewrite upto_In in Hx. apply not_div_small; lia.
    - eapply eqm_trans; [|eapply eqm_trans; [apply S|]]; [rewrite Z.mul_1_r; apply eqm_refl|].
      replace ((-1) ^ c * (2 ^ h * prod (upto h))) with (prod (upto h) * ((-1) ^ c * 2 ^ h)) by ring. apply eqm_refl. }
  assert (E1 : (-1) ^ c * (-1) ^ c = 1).
  { rewrite <- Z.pow_mul_l. change (-1 * -1) with 1. apply Z.pow_1_l. lia. }
  replace (2 ^ h) with ((-1) ^ c * ((-1) ^ c * 2 ^ h)) by (rewrite Z.mul_assoc, E1; ring).
  apply eqm_sym. replace ((-1) ^ c) with ((-1) ^ c * 1) at 1 by ring.
  apply eqm_mul; [apply eqm_refl|auto].
Qed.

Lemma filter_upto_count m n : 0 <= m <= n ->
  Z.of_nat (length (filter (fun i => m <? i) (upto n))) = n - m.
Proof.
  intros H. unfold upto.
  replace (Z.to_nat n) with (Z.to_nat m + Z.to_nat (n - m))%nat by lia.
  rewrite seq_app, map_app, filter_app, app_length.
  assert (E1 : filter (fun i => m <? i) (map Z.of_nat (seq 1 (Z.to_nat m))) = []).
  { apply incl_l_nil. intros x Hx. apply filter_In in Hx as [Hx Hm]. apply in_map_iff in Hx as (k & <- & Hk).
    apply in_seq in Hk. lia. }
  rewrite E1. cbn [length].
  assert (E2 : forall l, Forall (fun i => m < i) l -> filter (fun i => m <? i) l = l).
  { induction 1; cbn [filter]; auto. replace (m <? x) with true by lia. now f_equal. }
  rewrite E2, map_length, seq_length; [lia|].
  apply Forall_forall. intros x Hx. apply in_map_iff in Hx as (k & <- & Hk). apply in_seq in Hk. lia.
Qed.

Theorem two_nonresidue : p mod 8 = 5 -> eqm p (2 ^ h) (-1).
Proof.
  intros H8. pose proof half_eq. 
  set (k := p / 8). assert (Hk : p = 8 * k + 5) by (unfold k; lia).
  assert (Hh : h = 4 * k + 2) by lia. pose proof p_ge2.
  assert (C : Z.of_nat (length (filter (fun i => h <? 2 * i) (upto h))) = 2 * k + 1).
  { rewrite filter_ext with (g := fun i => 2 * k + 1 <? i); [|intros i; lia].
    rewrite filter_upto_count by lia. lia. }
  pose proof (gauss_two _ C) as G. rewrite Z.pow_add_r, Z.pow_mul_r in G by lia.
  change ((-1) ^ 2) with 1 in G. rewrite Z.pow_1_l in G by lia.
  change (1 * (-1) ^ 1) with (-1) in G. exact G.
Qed.

End Prime.
