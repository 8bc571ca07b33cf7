(** Finite sums over lists in a commutative semiring. *)
From Coq Require Import List Arith Lia Permutation Ring_theory.
Import ListNotations.

Section RSum.
Variable T : Type.
Variables (zero one : T) (add mul : T -> T -> T).
Hypothesis SR : semi_ring_theory zero one add mul eq.
Infix "+" := add. Infix "*" := mul.

Definition sum {X} (l : list X) (f : X -> T) : T := fold_right (fun x acc => f x + acc) zero l.

Lemma add_0_l x : zero + x = x. Proof. apply (SRadd_0_l SR). Qed.
Lemma add_comm x y : x + y = y + x. Proof. apply (SRadd_comm SR). Qed.
Lemma add_assoc x y z : x + (y + z) = x + y + z. Proof. apply (SRadd_assoc SR). Qed.
Lemma add_0_r x : x + zero = x. Proof. rewrite add_comm. apply add_0_l. Qed.
Lemma mul_comm x y : x * y = y * x. Proof. apply (SRmul_comm SR). Qed.
Lemma mul_assoc x y z : x * (y * z) = x * y * z. Proof. apply (SRmul_assoc SR). Qed.
Lemma mul_0_r x : x * zero = zero. Proof. rewrite mul_comm. apply (SRmul_0_l SR). Qed.
Lemma mul_add_l x y z : z * (x + y) = z * x + z * y.
Proof. rewrite mul_comm, (SRdistr_l SR). now rewrite (mul_comm x), (mul_comm y). Qed.

Lemma sum_nil {X} (f : X -> T) : sum [] f = zero. Proof. reflexivity. Qed.
Lemma sum_cons {X} x (l : list X) f : sum (x :: l) f = f x + sum l f. Proof. reflexivity. Qed.
Lemma sum_app {X} (l r : list X) f : sum (l ++ r) f = sum l f + sum r f.
Proof. induction l as [|x l IH]; cbn [app]; rewrite ?sum_cons, ?sum_nil; [now rewrite add_0_l|]. now rewrite IH, add_assoc. Qed.
Lemma sum_ext {X} (l : list X) f g : (forall x, In x l -> f x = g x) -> sum l f = sum l g.
Proof. induction l as [|x l IH]; intros H; auto. rewrite !sum_cons, (H x), IH; auto; [intros y Hy; apply H; now right|now left]. Qed.
Lemma sum_zero {X} (l : list X) : sum l (fun _ => zero) = zero.
Proof. induction l as [|x l IH]; auto. now rewrite sum_cons, IH, add_0_l. Qed.
Lemma sum_zero_ext {X} (l : list X) f : (forall x, In x l -> f x = zero) -> sum l f = zero.
Proof. intros H. rewrite (sum_ext l f (fun _ => zero) H). apply sum_zero. Qed.
Lemma sum_add {X} (l : list X) f g : sum l (fun x => f x + g x) = sum l f + sum l g.
Proof.
  induction l as [|x l IH]; [now rewrite !sum_nil, add_0_l|]. rewrite !sum_cons, IH.
  rewrite !add_assoc. f_equal. rewrite <- !add_assoc. f_equal. apply add_comm.
Qed.
Lemma sum_mul {X} (l : list X) f c : sum l (fun x => c * f x) = c * sum l f.
Proof. induction l as [|x l IH]; [now rewrite !sum_nil, mul_0_r|]. now rewrite !sum_cons, IH, mul_add_l. Qed.
Lemma sum_mul_r {X} (l : list X) f c : sum l (fun x => f x * c) = sum l f * c.
Proof. rewrite (sum_ext l _ (fun x => c * f x)) by (intros; apply mul_comm). now rewrite sum_mul, mul_comm. Qed.
Lemma sum_map {X Y} (h : X -> Y) l f : sum (map h l) f = sum l (fun x => f (h x)).
Proof. induction l as [|x l IH]; auto. cbn [map]. now rewrite !sum_cons, IH. Qed.
Lemma sum_flat_map {X Y} (h : X -> list Y) l f : sum (flat_map h l) f = sum l (fun x => sum (h x) f).
Proof. induction l as [|x l IH]; auto. cbn [flat_map]. now rewrite sum_app, sum_cons, IH. Qed.
Lemma sum_perm {X} (l r : list X) f : Permutation l r -> sum l f = sum r f.
Proof.
  induction 1 as [|x l r P IH|x y l|l m r P1 IH1 P2 IH2]; auto.
  - now rewrite !sum_cons, IH.
  - rewrite !sum_cons, !add_assoc. f_equal. apply add_comm.
  - congruence.
Qed.
Lemma sum_filter {X} (p : X -> bool) l f : sum (filter p l) f = sum l (fun x => if p x then f x else zero).
Proof. induction l as [|x l IH]; auto. cbn [filter]. rewrite sum_cons. destruct (p x); rewrite ?sum_cons, ?add_0_l, IH; auto. Qed.
Lemma sum_swap {X Y} (l : list X) (r : list Y) f : sum l (fun x => sum r (fun y => f x y)) = sum r (fun y => sum l (fun x => f x y)).
Proof.
  induction l as [|x l IH].
  - rewrite sum_nil. symmetry. apply sum_zero.
  - rewrite sum_cons, IH, <- sum_add. apply sum_ext. intros y _. now rewrite sum_cons.
Qed.
Lemma sum_same {X} (l r : list X) f : NoDup l -> NoDup r -> (forall x, In x l <-> In x r) -> sum l f = sum r f.
Proof. intros. apply sum_perm. now apply NoDup_Permutation. Qed.
Lemma fold_left_sum {X} (l : list X) f a : fold_left (fun acc x => acc + f x) l a = a + sum l f.
Proof. revert a. induction l as [|x l IH]; intros a; cbn [fold_left]; [now rewrite sum_nil, add_0_r|]. now rewrite IH, sum_cons, add_assoc. Qed.
End RSum.
