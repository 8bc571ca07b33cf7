(** C38: Fraction arithmetic (include/mtl/fraction.hpp) *)
From Coq Require Import ZArith QArith Lia.
From Verif Require Import FractionModel FractionProof.
Open Scope Z_scope.

(** Construction from any two [long long]s with a nonzero denominator: whenever no
    negation overflows the result is normalised and stands for [u / v]. *)
Theorem C38_make u v : - 2 ^ 63 <= u < 2 ^ 63 -> - 2 ^ 63 <= v < 2 ^ 63 -> forall h, f_make u v = Some h ->
  good h /\ v <> 0 /\ (value h == inject_Z u / inject_Z v)%Q.
Proof. intros Hu Hv h H. apply make_ok in H as (G & N & E & _); auto. repeat split; try apply G; auto. apply cross; auto. apply G. Qed.
Theorem C38_make_total u v : - 2 ^ 63 < u < 2 ^ 63 -> - 2 ^ 63 < v < 2 ^ 63 -> v <> 0 -> exists h, f_make u v = Some h.
Proof. apply make_some. Qed.
Theorem C38_make_ordering u v : - 2 ^ 63 <= u < 2 ^ 63 -> - 2 ^ 63 <= v < 2 ^ 63 -> forall h, fo_make u v = Some h ->
  good h /\ v <> 0 /\ (value h == inject_Z u / inject_Z v)%Q.
Proof. intros Hu Hv h H. apply fo_make_ok in H as (G & N & E); auto. repeat split; try apply G; auto. apply cross; auto. apply G. Qed.

(** The field operations: every result that is produced without overflow is exact. *)
Theorem C38_field f r : good f -> good r ->
  (forall h, f_add f r = Some h -> good h /\ (value h == value f + value r)%Q) /\
  (forall h, f_sub f r = Some h -> good h /\ (value h == value f - value r)%Q) /\
  (forall h, f_mul f r = Some h -> good h /\ Z.gcd (fnum h) (fden h) = 1 /\ (value h == value f * value r)%Q) /\
  (forall h, f_div f r = Some h -> good h /\ Z.gcd (fnum h) (fden h) = 1 /\ ~ (value r == 0)%Q /\ (value h == value f / value r)%Q) /\
  (forall h, f_neg f = Some h -> good h /\ (value h == - value f)%Q) /\
  (forall h, f_inv f = Some h -> good h /\ ~ (value f == 0)%Q /\ (value h == / value f)%Q).
Proof.
  intros Gf Gr. repeat split; intros; repeat match goal with
  | H : f_add _ _ = _ |- _ => apply add_ok in H as [? ?]; auto | H : f_sub _ _ = _ |- _ => apply sub_ok in H as [? ?]; auto
  | H : f_mul _ _ = _ |- _ => apply mul_ok in H as (? & ? & ?); auto | H : f_div _ _ = _ |- _ => apply div_ok in H as (? & ? & ? & ?); auto
  | H : f_neg _ = _ |- _ => apply neg_ok in H as [? ?]; auto | H : f_inv _ = _ |- _ => apply inv_ok in H as (? & ? & ?); auto end;
  auto using value_nz; match goal with H : good ?h |- _ => apply H end.
Qed.
(** They are total on fractions whose components fit in 31 bits. *)
Theorem C38_field_total f r : small f -> small r ->
  (exists h, f_add f r = Some h) /\ (exists h, f_sub f r = Some h) /\ (exists h, f_mul f r = Some h) /\
  (exists h, f_neg f = Some h) /\ (~ (value r == 0)%Q -> exists h, f_div f r = Some h) /\ (~ (value r == 0)%Q -> exists h, f_inv r = Some h).
Proof.
  intros Sf Sr. assert (N : ~ (value r == 0)%Q -> fnum r <> 0) by (intros N E; apply N; unfold Qeq, value; cbn [Qnum Qden]; rewrite E; reflexivity).
  split; [now apply add_some|]. split; [now apply sub_some|]. split; [now apply mul_some|]. split; [destruct (neg_some f Sf) as (h & ? & _); eauto|].
  split; [intros; apply div_some; auto|]. intros H. destruct (inv_some r Sr (N H)) as (h & ? & _); eauto.
Qed.

(** [reduct] gives the fraction in lowest terms if the greatest common divisor fits in [int]. *)
Theorem C38_reduct f : good f -> Z.gcd (fnum f) (fden f) < 2 ^ 31 -> - 2 ^ 63 < fnum f ->
  exists h, f_reduct f = Some h /\ good h /\ Z.gcd (fnum h) (fden h) = 1 /\ (value h == value f)%Q.
Proof.
  intros [Hf Df] G L. destruct f as [u v]. cbn [fnum fden] in *. destruct (reduct_some u v) as [h E]; try lia. exists h. split; auto.
  apply reduct_ok in E as (Gh & E & Lh); auto; try lia. split; auto. split; auto. rewrite (cross u v h); auto; [|lia|apply Gh]. symmetry. now apply (value_mul (Frac u v)).
Qed.
(** Mixed operations with a [long long] *)
Theorem C38_mixed f x : good f ->
  (forall h, Z.gcd (fnum f) (fden f) < 2 ^ 31 -> f_add_int f x = Some h -> good h /\ Z.gcd (fnum h) (fden h) = 1 /\ (value h == value f + inject_Z x)%Q) /\
  (forall h, Z.gcd (fnum f) (fden f) < 2 ^ 31 -> f_sub_int f x = Some h -> good h /\ Z.gcd (fnum h) (fden h) = 1 /\ (value h == value f - inject_Z x)%Q) /\
  (forall h, Z.gcd (fnum f) (fden f) < 2 ^ 31 -> f_int_sub x f = Some h -> good h /\ Z.gcd (fnum h) (fden h) = 1 /\ (value h == inject_Z x - value f)%Q) /\
  (forall h, Z.gcd (fnum f * x) (fden f) < 2 ^ 31 -> f_mul_int f x = Some h -> good h /\ Z.gcd (fnum h) (fden h) = 1 /\ (value h == value f * inject_Z x)%Q) /\
  (forall h, Z.gcd (fnum f) (fden f * x) < 2 ^ 31 -> f_div_int f x = Some h -> good h /\ x <> 0 /\ Z.gcd (fnum h) (fden h) = 1 /\ (value h == value f / inject_Z x)%Q) /\
  (forall h, Z.gcd (fden f * x) (fnum f) < 2 ^ 31 -> f_int_div x f = Some h -> good h /\ ~ (value f == 0)%Q /\ Z.gcd (fnum h) (fden h) = 1 /\ (value h == inject_Z x / value f)%Q).
Proof.
  intros G. split; [|split; [|split; [|split; [|split]]]].
  - intros h Hg H. now apply add_int_ok.
  - intros h Hg H. now apply sub_int_ok.
  - intros h Hg H. now apply int_sub_ok.
  - intros h Hg H. now apply mul_int_ok.
  - intros h Hg H. now apply div_int_ok.
  - intros h Hg H. apply int_div_ok in H as (Gh & N & L & E); auto using value_nz.
Qed.
Theorem C38_mixed_total f x : small f -> - 2 ^ 31 < x < 2 ^ 31 ->
  (exists h, f_add_int f x = Some h) /\ (exists h, f_sub_int f x = Some h) /\ (exists h, f_mul_int f x = Some h) /\
  (~ (value f == 0)%Q -> x <> 0 -> exists h, f_div_int f x = Some h).
Proof.
  intros Sf Hx. destruct (int_some f x Sf Hx) as (A & B & C). repeat (split; [assumption|]). intros N Nx. apply div_int_some; auto.
  intros E; apply N; unfold Qeq, value; cbn [Qnum Qden]; rewrite E; reflexivity.
Qed.
(** Comparisons decide the order of the rationals. *)
Theorem C38_compare f r : good f -> good r ->
  (forall c, f_cmp f r = Some c -> c = (value f ?= value r)%Q) /\
  (forall b, f_eq f r = Some b -> (b = true <-> (value f == value r)%Q)) /\
  (forall b, f_lt f r = Some b -> (b = true <-> (value f < value r)%Q)) /\
  (forall b, f_le f r = Some b -> (b = true <-> (value f <= value r)%Q)) /\
  (forall x c, f_cmp_int f x = Some c -> c = (value f ?= inject_Z x)%Q).
Proof. intros Gf Gr. split; [|split; [|split; [|split]]]; intros; [now apply cmp_ok|now apply eq_ok|now apply lt_ok|now apply le_ok|now apply cmp_int_ok]. Qed.
Theorem C38_compare_total f r : small f -> small r ->
  (exists c, f_cmp f r = Some c) /\ (exists c, f_eq f r = Some c) /\ (exists c, f_lt f r = Some c) /\ (exists c, f_le f r = Some c).
Proof. apply cmp_some. Qed.

(** The greatest common divisor is stored in an [int]: [reduct] of a good fraction can
    produce a different number, and can divide by zero. *)
Theorem C38_reduct_refuted :
  (exists f h, good f /\ f_reduct f = Some h /\ ~ (value h == value f)%Q) /\
  (exists f, good f /\ f_reduct f = None /\ exists h, f_mul f (Frac 1 1) = Some h /\ (value h == value f)%Q).
Proof.
  split.
  - exists (Frac 4294967299 12884901897), (Frac 1431655766 4294967299). split; [unfold good; cbn; lia|]. split; [vm_compute; reflexivity|]. vm_compute. discriminate.
  - exists (Frac 4294967296 12884901888). split; [unfold good; cbn; lia|]. split; [vm_compute; reflexivity|]. exists (Frac 1 3). split; [vm_compute; reflexivity|]. vm_compute. reflexivity.
Qed.

Example C38_ex : f_make 3 (-6) = Some (Frac (-3) 6) /\ f_reduct (Frac (-3) 6) = Some (Frac (-1) 2) /\ f_add (Frac (-1) 2) (Frac 1 6) = Some (Frac (-2) 6)
  /\ f_mul (Frac (-1) 2) (Frac 2 3) = Some (Frac (-1) 3) /\ f_div (Frac 1 2) (Frac (-3) 4) = Some (Frac (-2) 3) /\ f_int_sub 2 (Frac 1 3) = Some (Frac 5 3)
  /\ f_lt (Frac (-2) 3) (Frac 1 7) = Some true /\ f_cmp_int (Frac 14 7) 2 = Some Eq.
Proof. vm_compute. auto 10. Qed.

Print Assumptions C38_make.
Print Assumptions C38_make_total.
Print Assumptions C38_make_ordering.
Print Assumptions C38_field.
Print Assumptions C38_field_total.
Print Assumptions C38_reduct.
Print Assumptions C38_mixed.
Print Assumptions C38_mixed_total.
Print Assumptions C38_compare.
Print Assumptions C38_compare_total.
Print Assumptions C38_reduct_refuted.
