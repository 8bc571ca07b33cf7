From Coq Require Import Ring.
From Verif Require Import Base BaseLemmas ListExtra FftModel FftProof FftDft.
Set Implicit Arguments.

Section I.
Variable A : Type.
Variables (zero one : A) (add mul sub : A -> A -> A) (opp : A -> A).
Hypothesis RT : ring_theory zero one add mul sub opp eq.
Add Ring AR2 : RT.
Notation pw := (pw one mul).
Notation total := (total zero add).
Lemma total_zero n : total n (fun _ => zero) = zero.
Proof. induction n as [|n IH]; cbn [FftModel.total]; [reflexivity|]. rewrite IH. ring. Qed.
Lemma total_plus n m g : total (n + m) g = add (total n g) (total m (fun j => g (n + j))).
Proof. induction m as [|m IH]; [rewrite Nat.add_0_r; cbn [FftModel.total]; ring|]. rewrite Nat.add_succ_r. cbn [FftModel.total]. rewrite IH. ring. Qed.
Lemma total_swap n m (g : nat -> nat -> A) : total n (fun i => total m (fun j => g i j)) = total m (fun j => total n (fun i => g i j)).
Proof.
  induction n as [|n IH]; cbn [FftModel.total]; [now rewrite total_zero|]. rewrite IH. now rewrite <- (total_add RT).
Qed.
Lemma total_pick n l (g : nat -> A) : l < n -> total n (fun j => if j =? l then g j else zero) = g l.
Proof.
  induction n as [|n IH]; intros Hl; [lia|]. cbn [FftModel.total]. destruct (Nat.eq_dec l n) as [->|].
  - rewrite Nat.eqb_refl. rewrite (@total_ext A zero add (fun _ _ => zero) n _ (fun _ => zero)); [rewrite total_zero; ring|]. intros i Hi. destruct (Nat.eqb_spec i n); [lia|reflexivity].
  - rewrite IH by lia. destruct (Nat.eqb_spec n l); [lia|]. ring.
Qed.
Lemma pw_base x y e : pw (mul x y) e = mul (pw x e) (pw y e).
Proof. induction e as [|e IH]; cbn [FftModel.pw]; [ring|]. rewrite IH. ring. Qed.
Variables (K : nat) (z : nat -> A).
Hypothesis Z1 : 1 <= K -> z 1 = opp one.
Hypothesis Z2 : forall s, s < K -> mul (z (S s)) (z (S s)) = z s.
Lemma minus_pow d : pw (opp one) (2 * d) = one /\ pw (opp one) (2 * d + 1) = opp one.
Proof.
  assert (E : pw (opp one) (2 * d) = one). { rewrite (pw_sq RT (fun _ _ => zero)). replace (mul (opp one) (opp one)) with one by ring. apply (pw_one RT). }
  split; [exact E|]. rewrite (pw_add RT), E. cbn [FftModel.pw]. ring.
Qed.
Lemma half s : s < K -> pw (z (S s)) (2 ^ s) = opp one.
Proof.
  induction s as [|s IH]; intros Hs; [cbn [Nat.pow FftModel.pw]; rewrite Z1 by lia; ring|]. cbn [Nat.pow]. replace (2 ^ s + (2 ^ s + 0)) with (2 * 2 ^ s) by lia. rewrite (pw_sq RT (fun _ _ => zero)), Z2 by lia. apply IH. lia.
Qed.
Lemma orth s : s <= K -> forall d, 0 < d < 2 ^ s -> total (2 ^ s) (pw (pw (z s) d)) = zero.
Proof.
  induction s as [|s IH]; intros Hs d Hd; [cbn in Hd; lia|]. cbn [Nat.pow] in Hd. replace (2 ^ S s) with (2 ^ s + 2 ^ s) by (cbn [Nat.pow]; lia). rewrite total_plus. set (y := pw (z (S s)) d).
  assert (Y : pw y (2 ^ s) = pw (opp one) d). { unfold y. rewrite <- (pw_mul RT), Nat.mul_comm, (pw_mul RT), half by lia. reflexivity. }
  assert (E : total (2 ^ s) (fun j => pw y (2 ^ s + j)) = mul (total (2 ^ s) (pw y)) (pw (opp one) d)).
  { rewrite <- (total_mul RT). apply (@total_ext A zero add (fun _ _ => zero)). intros j _. rewrite (pw_add RT), Y. ring. }
  rewrite E. assert (P : d = 2 * (d / 2) \/ d = 2 * (d / 2) + 1) by (pose proof (Nat.div_mod d 2); pose proof (Nat.mod_upper_bound d 2); lia). destruct P as [P|P].
  - assert (Yz : y = pw (z s) (d / 2)) by (unfold y; rewrite P at 1; rewrite (pw_sq RT (fun _ _ => zero)), Z2 by lia; reflexivity). rewrite Yz. rewrite IH by lia. ring.
  - rewrite P. rewrite (proj2 (minus_pow (d / 2))). ring.
Qed.
End I.
Section J.
Variable A : Type.
Variables (zero one : A) (add mul sub : A -> A -> A) (opp : A -> A).
Hypothesis RT : ring_theory zero one add mul sub opp eq.
Add Ring AR3 : RT.
Notation pw := (pw one mul).
Notation total := (total zero add).
Variables (K : nat) (z z' : nat -> A).
Hypothesis Z1 : 1 <= K -> z 1 = opp one.
Hypothesis Z2 : forall s, s < K -> mul (z (S s)) (z (S s)) = z s.
Hypothesis Y1 : 1 <= K -> z' 1 = opp one.
Hypothesis Y2 : forall s, s < K -> mul (z' (S s)) (z' (S s)) = z' s.
Hypothesis ZY : mul (z K) (z' K) = one.
Lemma cancel e : mul (pw (z K) e) (pw (z' K) e) = one.
Proof. rewrite <- (pw_base RT), ZY. apply (pw_one RT). Qed.
Lemma orth2 j l : j < 2 ^ K -> l < 2 ^ K -> total (2 ^ K) (fun i => mul (pw (z K) (i * j)) (pw (z' K) (l * i))) = if j =? l then total (2 ^ K) (fun _ => one) else zero.
Proof.
  intros Hj Hl. destruct (Nat.eqb_spec j l) as [->|N].
  - apply (@total_ext A zero add (fun _ _ => zero)). intros i _. rewrite (Nat.mul_comm l i). apply cancel.
  - destruct (Nat.lt_ge_cases l j) as [L|L].
    + transitivity (total (2 ^ K) (pw (pw (z K) (j - l)))); [|apply (@orth A zero one add mul sub opp RT K z Z1 Z2 K (le_n K) (j - l)); lia]. apply (@total_ext A zero add (fun _ _ => zero)). intros i _. replace (i * j) with (i * l + (j - l) * i) by (rewrite (Nat.mul_comm (j - l)), <- Nat.mul_add_distr_l; f_equal; lia). rewrite (pw_add RT), (Nat.mul_comm l i), (pw_mul RT (z K) (j - l)). transitivity (mul (mul (pw (z K) (i * l)) (pw (z' K) (i * l))) (pw (pw (z K) (j - l)) i)); [ring|]. rewrite cancel. ring.
    + transitivity (total (2 ^ K) (pw (pw (z' K) (l - j)))); [|apply (@orth A zero one add mul sub opp RT K z' Y1 Y2 K (le_n K) (l - j)); lia]. apply (@total_ext A zero add (fun _ _ => zero)). intros i _. replace (l * i) with (i * j + (l - j) * i) by (rewrite (Nat.mul_comm (l - j)), <- Nat.mul_add_distr_l, Nat.mul_comm; f_equal; lia). rewrite (pw_add RT (z' K)), (pw_mul RT (z' K) (l - j)). transitivity (mul (mul (pw (z K) (i * j)) (pw (z' K) (i * j))) (pw (pw (z' K) (l - j)) i)); [ring|]. rewrite cancel. ring.
Qed.
Lemma invert (f : nat -> A) l : l < 2 ^ K ->
  total (2 ^ K) (fun i => mul (total (2 ^ K) (fun j => mul (f j) (pw (z K) (i * j)))) (pw (z' K) (l * i))) = mul (total (2 ^ K) (fun _ => one)) (f l).
Proof.
  intros Hl. transitivity (total (2 ^ K) (fun i => total (2 ^ K) (fun j => mul (f j) (mul (pw (z K) (i * j)) (pw (z' K) (l * i)))))).
  { apply (@total_ext A zero add (fun _ _ => zero)). intros i _. rewrite <- (total_mul RT). apply (@total_ext A zero add (fun _ _ => zero)). intros j _. ring. }
  rewrite (total_swap RT). transitivity (total (2 ^ K) (fun j => if j =? l then mul (total (2 ^ K) (fun _ => one)) (f j) else zero)); [|now apply (total_pick RT) with (g := fun j => mul (total (2 ^ K) (fun _ => one)) (f j))].
  apply (@total_ext A zero add (fun _ _ => zero)). intros j Hj. transitivity (mul (total (2 ^ K) (fun i => mul (pw (z K) (i * j)) (pw (z' K) (l * i)))) (f j)).
  { rewrite <- (total_mul RT). apply (@total_ext A zero add (fun _ _ => zero)). intros i _. ring. }
  rewrite orth2 by auto. destruct (j =? l); ring.
Qed.
End J.
